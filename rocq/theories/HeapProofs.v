(** * Ownership of the shared heap

    The invariant that ties a heap to the pointers the threads own, its
    preservation by every primitive, a proof rule for programs that looks only
    at the pointers a thread owns, and its soundness for any number of threads
    under any schedule. *)
From Coq Require Import List Arith Lia Bool Permutation.
From Verif Require Import PermSolve HeapModel.
Import ListNotations.

Section P.
Context {C : Type} (kids : C -> list addr).

(** ** What a pointer stands for

    The physical tree below a pointer: the address, the contents of the cell
    and the trees below the pointers in the contents.  Two pointers to the
    same cell stand for equal trees: sharing is equality of addresses. *)
Inductive ptree := PT (a : addr) (c : C) (ts : list ptree).

Definition pa (t : ptree) : addr := match t with PT a _ _ => a end.

(** A thread owns pointers, and cells it has mutably borrowed. *)
Inductive own := Tree (t : ptree) | Held (a : addr).

Definition oa (o : own) : addr := match o with Tree t => pa t | Held a => a end.

Fixpoint ptree_rect2 (P : ptree -> Prop)
  (f : forall a c ts, Forall P ts -> P (PT a c ts)) (t : ptree) : P t :=
  match t with
  | PT a c ts =>
      f a c ts ((fix all (l : list ptree) : Forall P l :=
                   match l with
                   | [] => Forall_nil P
                   | t :: l' => Forall_cons t (ptree_rect2 P f t) (all l')
                   end) ts)
  end.

(** The tree is really there in the heap. *)
Fixpoint phys (h : heap C) (t : ptree) : Prop :=
  match t with
  | PT a c ts =>
      (exists n, get h a = Some (Full n c)) /\ kids c = map pa ts /\
      (fix all (l : list ptree) : Prop :=
         match l with [] => True | t :: l' => phys h t /\ all l' end) ts
  end.

Lemma phys_eq : forall h a c ts,
  phys h (PT a c ts) <->
  (exists n, get h a = Some (Full n c)) /\ kids c = map pa ts /\ Forall (phys h) ts.
Proof.
  intros h a c ts. cbn [phys].
  assert (E : forall l,
    (fix all (l : list ptree) : Prop :=
         match l with [] => True | t :: l' => phys h t /\ all l' end) l <-> Forall (phys h) l).
  { induction l as [|t l IH]; [split; auto|]. rewrite IH. split.
    - intros []. now constructor.
    - intros F. now inversion F. }
  now rewrite E.
Qed.
Arguments phys : simpl never.

Fixpoint pas (t : ptree) : list addr :=
  match t with PT a _ ts => a :: flat_map pas ts end.

Definition own_as (o : own) : list addr :=
  match o with Tree t => pas t | Held a => [a] end.

Definition own_wf (h : heap C) (o : own) : Prop :=
  match o with Tree t => phys h t | Held a => get h a = Some Hole end.

Definition cnt (a : addr) (l : list addr) : nat := count_occ Nat.eq_dec l a.

Definition contrib (a : addr) (x : option (cell C)) : nat :=
  match x with Some (Full _ c) => cnt a (kids c) | _ => 0 end.

(** How many pointers to [a] the live cells hold. *)
Fixpoint indeg (h : heap C) (a : addr) : nat :=
  match h with
  | [] => 0
  | x :: h' => contrib a x + indeg h' a
  end.

Definition rc (x : option (cell C)) : nat :=
  match x with Some (Full n _) => n | Some Hole => 1 | None => 0 end.

(** The invariant: every count is the number of pointers there are, whoever
    owns them; what a thread owns is in the heap; nothing else is. *)
Definition WF (h : heap C) (G : list own) : Prop :=
  (forall a, rc (get h a) = cnt a (map oa G) + indeg h a) /\
  Forall (own_wf h) G /\
  (forall a, get h a <> None -> exists o, In o G /\ In a (own_as o)).

(** ** Facts about [get], [set], [indeg] *)
Lemma get_lt : forall (h : heap C) a x, get h a = Some x -> a < length h.
Proof.
  intros h a x H. unfold get in H.
  destruct (nth_error h a) eqn:E; [|discriminate].
  apply nth_error_Some. congruence.
Qed.

Lemma get_set_eq : forall (h : heap C) a x, a < length h -> get (set h a x) a = x.
Proof.
  intros h a x. revert a. induction h as [|y h IH]; intros [|a] L; cbn in *; try lia.
  - unfold get. cbn. now destruct x.
  - unfold get in *. cbn. apply IH. lia.
Qed.

Lemma get_set_ne : forall (h : heap C) a b x, a <> b -> get (set h a x) b = get h b.
Proof.
  intros h a b x. revert a b. induction h as [|y h IH]; intros a b N; cbn; [now destruct a|].
  destruct a; destruct b; unfold get in *; cbn; try congruence; auto.
Qed.

Lemma get_app_lt : forall (h : heap C) x b, b < length h -> get (h ++ [x]) b = get h b.
Proof.
  intros. unfold get. now rewrite nth_error_app1.
Qed.

Lemma get_app_eq : forall (h : heap C) x, get (h ++ [x]) (length h) = x.
Proof.
  intros. unfold get. rewrite nth_error_app2, Nat.sub_diag; cbn; [|lia]. now destruct x.
Qed.

Lemma get_app_gt : forall (h : heap C) x b, length h < b -> get (h ++ [x]) b = None.
Proof.
  intros. unfold get. rewrite nth_error_app2 by lia.
  destruct (b - length h) eqn:E; [lia|]. cbn. now destruct n.
Qed.

Lemma get_out : forall (h : heap C) b, length h <= b -> get h b = None.
Proof.
  intros. unfold get. now rewrite (proj2 (nth_error_None h b)).
Qed.

Lemma set_length : forall (h : heap C) a x, length (set h a x) = length h.
Proof.
  induction h as [|y h IH]; intros [|a] x; cbn; auto.
Qed.

Lemma indeg_app : forall h x a, indeg (h ++ [x]) a = indeg h a + contrib a x.
Proof.
  induction h as [|y h IH]; intros; cbn; [lia|]. rewrite IH. lia.
Qed.

Lemma contrib_get : forall h a b, a < length h ->
  contrib b (get h a) = match nth_error h a with Some y => contrib b y | None => 0 end.
Proof.
  intros. unfold get. destruct (nth_error h a) as [[|]|]; reflexivity.
Qed.

Lemma indeg_set : forall h a x b, a < length h ->
  indeg (set h a x) b + contrib b (get h a) = indeg h b + contrib b x.
Proof.
  intros h a x b L. rewrite contrib_get by trivial. revert a L.
  induction h as [|y h IH]; intros [|a] L; cbn in *; try lia.
  specialize (IH a ltac:(lia)). lia.
Qed.

Lemma cnt_app : forall a l1 l2, cnt a (l1 ++ l2) = cnt a l1 + cnt a l2.
Proof. intros. apply count_occ_app. Qed.

Lemma cnt_cons : forall a b l, cnt a (b :: l) = (if Nat.eq_dec b a then 1 else 0) + cnt a l.
Proof. intros. unfold cnt. cbn. destruct (Nat.eq_dec b a); lia. Qed.

Lemma cnt_in : forall a l, In a l -> 1 <= cnt a l.
Proof. intros. unfold cnt. apply (count_occ_In Nat.eq_dec) in H. lia. Qed.

Lemma cnt_perm : forall a l1 l2, Permutation l1 l2 -> cnt a l1 = cnt a l2.
Proof. intros. unfold cnt. now apply (Permutation_count_occ Nat.eq_dec). Qed.

Lemma indeg_pos : forall h a b n c, get h b = Some (Full n c) -> In a (kids c) -> 1 <= indeg h a.
Proof.
  intros h a b n c. revert b. unfold get. induction h as [|y h IH]; intros b; cbn.
  - now destruct b.
  - destruct b as [|b]; cbn.
    + destruct y; [|discriminate]. intros [= ->] I. cbn. apply cnt_in in I. lia.
    + intros E I. specialize (IH b E I). lia.
Qed.

(** ** Trees *)
Lemma pas_head : forall t, In (pa t) (pas t).
Proof. intros []. cbn. auto. Qed.

Lemma own_as_head : forall o, In (oa o) (own_as o).
Proof. intros []; cbn; [apply pas_head|auto]. Qed.

Lemma phys_parent : forall h t a, phys h t -> In a (pas t) -> a = pa t \/ 1 <= indeg h a.
Proof.
  intros h t a. induction t as [b c ts IH] using ptree_rect2.
  rewrite phys_eq. intros ((n & E) & K & F) I. cbn in I. destruct I as [->|I]; [now left|].
  right. apply in_flat_map in I as (t & T & I).
  rewrite Forall_forall in IH, F. destruct (IH t T (F t T) I) as [->|]; [|assumption].
  apply (indeg_pos h _ b n c E). rewrite K. now apply in_map.
Qed.

Lemma own_parent : forall h o a, own_wf h o -> In a (own_as o) -> a = oa o \/ 1 <= indeg h a.
Proof.
  intros h [t|b] a W I; cbn in *; [now apply phys_parent|]. destruct I as [->|[]]. now left.
Qed.

Lemma phys_live : forall h t a, phys h t -> In a (pas t) -> exists n c, get h a = Some (Full n c).
Proof.
  intros h t a. induction t as [b c ts IH] using ptree_rect2.
  rewrite phys_eq. intros ((n & E) & K & F) I. cbn in I. destruct I as [->|I]; [eauto|].
  apply in_flat_map in I as (t & T & I). rewrite Forall_forall in IH, F. eauto.
Qed.

Lemma phys_unique : forall h t t', phys h t -> phys h t' -> pa t = pa t' -> t = t'.
Proof.
  intros h t. induction t as [a c ts IH] using ptree_rect2. intros [a' c' ts'].
  rewrite !phys_eq. intros ((n & E) & K & F) ((n' & E') & K' & F') P. cbn in P. subst a'.
  rewrite E in E'. injection E' as -> ->. f_equal. rewrite K in K'. clear K E.
  revert ts' K' F'. induction ts as [|t ts IHts]; intros [|t' ts'] M F'; try discriminate; auto.
  injection M as M1 M2. inversion IH. inversion F. inversion F'. subst.
  f_equal; auto.
Qed.

Lemma phys_set : forall h t a x, phys h t -> ~ In a (pas t) -> phys (set h a x) t.
Proof.
  intros h t a x. induction t as [b c ts IH] using ptree_rect2.
  rewrite !phys_eq. cbn. intros ((n & E) & K & F) N. split; [|split; trivial].
  - exists n. rewrite get_set_ne; auto.
  - rewrite Forall_forall in *. intros t T. apply IH; auto.
    intros I. apply N. right. apply in_flat_map. eauto.
Qed.

Lemma phys_rc : forall h t a n m c,
  phys h t -> get h a = Some (Full n c) -> phys (set h a (Some (Full m c))) t.
Proof.
  intros h t a n m c. induction t as [b d ts IH] using ptree_rect2.
  rewrite !phys_eq. intros ((k & E) & K & F) G. split; [|split; trivial].
  - destruct (Nat.eq_dec a b) as [->|N].
    + rewrite get_set_eq by (eapply get_lt; eauto). exists m. congruence.
    + exists k. rewrite get_set_ne; auto.
  - rewrite Forall_forall in *. intros t T. apply IH; auto.
Qed.

Lemma phys_app : forall h t x, phys h t -> phys (h ++ [x]) t.
Proof.
  intros h t x. induction t as [b d ts IH] using ptree_rect2.
  rewrite !phys_eq. intros ((k & E) & K & F). split; [|split; trivial].
  - exists k. rewrite get_app_lt; trivial. eapply get_lt; eauto.
  - rewrite Forall_forall in *. intros t T. apply IH; auto.
Qed.

Lemma own_app : forall h o x, own_wf h o -> own_wf (h ++ [x]) o.
Proof.
  intros h [t|a] x W; cbn in *; [now apply phys_app|].
  rewrite get_app_lt; trivial. eapply get_lt; eauto.
Qed.

Lemma own_rc : forall h o a n m c,
  own_wf h o -> get h a = Some (Full n c) -> own_wf (set h a (Some (Full m c))) o.
Proof.
  intros h [t|b] a n m c W E; cbn in *; [eapply phys_rc; eauto|].
  destruct (Nat.eq_dec a b) as [->|N]; [congruence|]. now rewrite get_set_ne.
Qed.

Lemma own_set : forall h o a x, own_wf h o -> ~ In a (own_as o) -> own_wf (set h a x) o.
Proof.
  intros h [t|b] a x W N; cbn in *; [now apply phys_set|].
  rewrite get_set_ne; auto.
Qed.

(** ** The invariant, step by step *)
Lemma WF_perm : forall h G G', Permutation G G' -> WF h G -> WF h G'.
Proof.
  intros h G G' P (W1 & W2 & W3). split; [|split].
  - intros a. rewrite W1. f_equal. apply cnt_perm. now apply Permutation_map.
  - rewrite Forall_forall in *. intros o I. apply W2. eapply Permutation_in; [|exact I].
    now apply Permutation_sym.
  - intros a L. destruct (W3 a L) as (o & I & A). exists o. split; trivial.
    eapply Permutation_in; eauto.
Qed.

Lemma WF_nil : WF [] [].
Proof.
  split; [|split]; [intros [|a]; reflexivity | constructor |].
  intros a L. destruct a; now cbn in L.
Qed.

Lemma map_oa_Tree : forall ts, map oa (map Tree ts) = map pa ts.
Proof. intros. now rewrite map_map. Qed.

Lemma WF_new : forall h ts c G,
  WF h (map Tree ts ++ G) -> kids c = map pa ts ->
  WF (h ++ [Some (Full 1 c)]) (Tree (PT (length h) c ts) :: G).
Proof.
  intros h ts c G (W1 & W2 & W3) K. apply Forall_app in W2 as [F1 F2]. split; [|split].
  - intros a. rewrite indeg_app. cbn [map oa pa]. rewrite cnt_cons.
    specialize (W1 a). rewrite map_app, cnt_app, map_oa_Tree in W1. cbn [contrib].
    rewrite K. destruct (Nat.eq_dec (length h) a) as [<-|N].
    + rewrite get_app_eq. cbn. rewrite (get_out h (length h)) in W1 by lia. cbn in W1. lia.
    + destruct (lt_dec a (length h)).
      * rewrite get_app_lt by trivial. lia.
      * rewrite get_app_gt by lia. rewrite get_out in W1 by lia. cbn in *. lia.
  - constructor.
    + cbn [own_wf]. rewrite phys_eq. split; [exists 1; apply get_app_eq|]. split; trivial.
      rewrite Forall_forall in *. intros t T. apply phys_app. apply (F1 (Tree t)).
      now apply in_map.
    + eapply Forall_impl; [|exact F2]. intros. now apply own_app.
  - intros a L. destruct (Nat.eq_dec (length h) a) as [<-|N].
    + eexists. split; [now left|]. cbn. auto.
    + assert (L' : get h a <> None).
      { destruct (lt_dec a (length h)); [now rewrite get_app_lt in L|].
        rewrite get_app_gt in L; [congruence|lia]. }
      destruct (W3 a L') as (o & I & A). apply in_app_iff in I as [I|I].
      * eexists. split; [now left|]. apply in_map_iff in I as (t & <- & T). cbn in *.
        right. apply in_flat_map. eauto.
      * exists o. split; [now right|trivial].
Qed.

Lemma WF_reserve : forall h G, WF h G -> WF (h ++ [Some Hole]) (Held (length h) :: G).
Proof.
  intros h G (W1 & W2 & W3). split; [|split].
  - intros a. rewrite indeg_app. cbn [map oa]. rewrite cnt_cons. specialize (W1 a). cbn [contrib].
    destruct (Nat.eq_dec (length h) a) as [<-|N].
    + rewrite get_app_eq. cbn. rewrite (get_out h (length h)) in W1 by lia. cbn in W1. lia.
    + destruct (lt_dec a (length h)).
      * rewrite get_app_lt by trivial. lia.
      * rewrite get_app_gt by lia. rewrite get_out in W1 by lia. cbn in *. lia.
  - constructor; [cbn; apply get_app_eq|].
    eapply Forall_impl; [|exact W2]. intros. now apply own_app.
  - intros a L. destruct (Nat.eq_dec (length h) a) as [<-|N].
    + eexists. split; [now left|]. cbn. auto.
    + assert (L' : get h a <> None).
      { destruct (lt_dec a (length h)); [now rewrite get_app_lt in L|].
        rewrite get_app_gt in L; [congruence|lia]. }
      destruct (W3 a L') as (o & I & A). exists o. split; [now right|trivial].
Qed.

(** [t] is a part of something owned. *)
Inductive sub : ptree -> ptree -> Prop :=
| sub_refl : forall t, sub t t
| sub_kid : forall t t' a c ts, In t' ts -> sub t t' -> sub t (PT a c ts).

Lemma sub_phys : forall h t t', sub t t' -> phys h t' -> phys h t.
Proof.
  intros h t t' S. induction S; trivial. rewrite phys_eq. intros (_ & _ & F).
  rewrite Forall_forall in F. auto.
Qed.

Lemma sub_pas : forall t t', sub t t' -> incl (pas t) (pas t').
Proof.
  intros t t' S. induction S; intros x I; trivial. cbn. right. apply in_flat_map. eauto.
Qed.

Fixpoint psize (t : ptree) : nat :=
  match t with PT _ _ ts => S (list_sum (map psize ts)) end.

Lemma psize_kid : forall t ts a c, In t ts -> psize t < psize (PT a c ts).
Proof.
  intros t ts a c I. cbn [psize]. induction ts as [|y ts IH]; [easy|]. cbn [map list_sum fold_right].
  change (fold_right Nat.add 0 (map psize ts)) with (list_sum (map psize ts)).
  destruct I as [->|I]; [lia|]. specialize (IH I). lia.
Qed.

Lemma sub_size : forall s u, sub s u -> psize s <= psize u.
Proof.
  intros s u S. induction S; [lia|]. pose proof (psize_kid t' ts a c H). lia.
Qed.

Definition lent (t : ptree) (G : list own) : Prop := exists t', In (Tree t') G /\ sub t t'.

Lemma lent_phys : forall h t G, lent t G -> WF h G -> phys h t.
Proof.
  intros h t G (t' & I & S) (_ & F & _). rewrite Forall_forall in F.
  apply F in I. eapply sub_phys; eauto.
Qed.

Lemma WF_clone : forall h G a c ts n, WF h G -> lent (PT a c ts) G ->
  get h a = Some (Full n c) -> WF (set h a (Some (Full (S n) c))) (Tree (PT a c ts) :: G).
Proof.
  intros h G a c ts n W Lt E. assert (P := lent_phys h _ G Lt W).
  destruct W as (W1 & W2 & W3). assert (L := get_lt _ _ _ E). split; [|split].
  - intros b. cbn [map oa pa]. rewrite cnt_cons. specialize (W1 b).
    assert (D := indeg_set h a (Some (Full (S n) c)) b L). rewrite E in D. cbn in D.
    destruct (Nat.eq_dec a b) as [<-|N].
    + rewrite get_set_eq by trivial. rewrite E in W1. cbn in *. lia.
    + rewrite get_set_ne by trivial. lia.
  - constructor; [cbn; eapply phys_rc; eauto|].
    eapply Forall_impl; [|exact W2]. intros. eapply own_rc; eauto.
  - intros b N. destruct (Nat.eq_dec a b) as [<-|D].
    + eexists. split; [now left|]. cbn. auto.
    + rewrite get_set_ne in N by trivial. destruct (W3 b N) as (o & I & A).
      exists o. split; [now right|trivial].
Qed.

Lemma WF_unique : forall h G t x,
  WF h (Tree t :: G) -> get h (pa t) = Some (Full 1 x) ->
  (forall o, In o G -> ~ In (pa t) (own_as o)) /\ ~ In (pa t) (flat_map pas (match t with PT _ _ ts => ts end)).
Proof.
  intros h G t x (W1 & W2 & W3) E. specialize (W1 (pa t)). rewrite E in W1.
  cbn [rc map oa] in W1. rewrite cnt_cons in W1.
  destruct (Nat.eq_dec (pa t) (pa t)) as [_|]; [|congruence].
  apply Forall_cons_iff in W2 as [P F]. cbn in P. split.
  - intros o I A. rewrite Forall_forall in F.
    destruct (own_parent h o (pa t) (F o I) A) as [Q|Q]; [|lia].
    assert (In (pa t) (map oa G)) by (rewrite Q; now apply in_map).
    apply cnt_in in H. unfold cnt in *. lia.
  - destruct t as [a c ts]. cbn [pa] in *. intros I. apply phys_eq in P as ((n & E') & K & P).
    apply in_flat_map in I as (t & T & A). rewrite Forall_forall in P.
    destruct (phys_parent h t a (P t T) A) as [Q|Q]; [|lia].
    assert (1 <= indeg h a); [|lia]. apply (indeg_pos h a a n c E').
    rewrite K, Q. now apply in_map.
Qed.

Lemma WF_dec : forall h G t n c,
  WF h (Tree t :: G) -> get h (pa t) = Some (Full (S (S n)) c) ->
  WF (set h (pa t) (Some (Full (S n) c))) G.
Proof.
  intros h G t n c (W1 & W2 & W3) E. assert (L := get_lt _ _ _ E).
  apply Forall_cons_iff in W2 as [P F]. cbn in P. split; [|split].
  - intros b. specialize (W1 b). cbn [map oa] in W1. rewrite cnt_cons in W1.
    assert (D := indeg_set h (pa t) (Some (Full (S n) c)) b L). rewrite E in D. cbn in D.
    destruct (Nat.eq_dec (pa t) b) as [<-|N].
    + rewrite get_set_eq by trivial. rewrite E in W1. cbn in *. lia.
    + rewrite get_set_ne by trivial. lia.
  - eapply Forall_impl; [|exact F]. intros. eapply own_rc; eauto.
  - assert (R : exists o, In o G /\ In (pa t) (own_as o)).
    { (* another pointer exists: owned, or inside an owned tree *)
      specialize (W1 (pa t)). rewrite E in W1. cbn [map oa rc] in W1. rewrite cnt_cons in W1.
      destruct (Nat.eq_dec (pa t) (pa t)) as [_|]; [|congruence].
      destruct (in_dec Nat.eq_dec (pa t) (map oa G)) as [I|I].
      - apply in_map_iff in I as (o & Q & I). exists o. split; trivial. rewrite <- Q.
        apply own_as_head.
      - assert (Z : cnt (pa t) (map oa G) = 0) by now apply count_occ_not_In.
        assert (D : 1 <= indeg h (pa t)) by lia.
        assert (X : exists b m d, get h b = Some (Full m d) /\ In (pa t) (kids d)).
        { clear - D. induction h as [|y h IH]; cbn in D; [lia|].
          destruct (Nat.eq_dec (contrib (pa t) y) 0) as [Q|Q].
          - destruct IH as (b & m & d & ? & ?); [lia|]. exists (S b), m, d. now split.
          - destruct y as [[m d|]|]; cbn in Q; try lia. exists 0, m, d. split; [reflexivity|].
            apply (count_occ_In Nat.eq_dec). unfold cnt in Q. lia. }
        destruct X as (b & m & d & Eb & I').
        destruct (W3 b) as (o & Io & Ao); [congruence|]. cbn in Io.
        assert (Hkid : forall o, own_wf h o -> In b (own_as o) ->
          exists t', In (pa t) (pas t') /\ incl (pas t') (own_as o) /\ In (Tree t') [o] \/ In (pa t) (own_as o)).
        { intros o' Wo Ao'. destruct o' as [t'|b']; cbn in *.
          - exists t'. left. split; [|split; [apply incl_refl|now left]].
            clear - Wo Ao' Eb I'. induction t' as [x y ts IH] using ptree_rect2.
            apply phys_eq in Wo as ((k & Ex) & K & F). cbn in *. destruct Ao' as [->|A].
            + rewrite Eb in Ex. injection Ex as -> ->. right. rewrite K in I'.
              apply in_map_iff in I' as (t2 & Q & T2). apply in_flat_map. exists t2.
              split; trivial. rewrite <- Q. apply pas_head.
            + right. apply in_flat_map in A as (t2 & T2 & A). apply in_flat_map. exists t2.
              split; trivial. rewrite Forall_forall in *. auto.
          - destruct Ao' as [->|[]]. congruence. }
        destruct Io as [<-|Io].
        + (* the other pointer is inside the tree being dropped: impossible, it would be cyclic *)
          exfalso. cbn in Ao. clear - P Ao Eb I'.
          (* b is in t, and has (pa t) as a kid: t is inside itself *)
          assert (S : exists s, sub s t /\ pa s = b).
          { clear Eb I'. induction t as [x y ts IH] using ptree_rect2. cbn in Ao.
            destruct Ao as [->|A]; [eexists; split; [apply sub_refl|reflexivity]|].
            apply in_flat_map in A as (t2 & T2 & A). apply phys_eq in P as (_ & _ & F).
            rewrite Forall_forall in *. destruct (IH t2 T2 (F t2 T2) A) as (s & Ss & Q).
            exists s. split; trivial. econstructor; eauto. }
          destruct S as (s & Ss & Q). assert (Ps := sub_phys h s t Ss P).
          destruct s as [b' d' ts']. cbn in Q. subst b'.
          apply phys_eq in Ps as ((k & Ex) & K & F). rewrite Eb in Ex. injection Ex as -> ->.
          rewrite K in I'. apply in_map_iff in I' as (t2 & Q & T2).
          rewrite Forall_forall in F. assert (t2 = t) by (eapply phys_unique; eauto). subst t2.
          (* size argument *)
          apply sub_size in Ss. pose proof (psize_kid t ts' b d' T2). lia.
        + exists o. split; trivial. rewrite Forall_forall in F.
          destruct (Hkid o (F o Io) Ao) as (t' & [(A & B & _)|A]); auto. }
    intros b N. destruct (Nat.eq_dec (pa t) b) as [<-|D]; trivial.
    rewrite get_set_ne in N by trivial. destruct (W3 b N) as (o & [<-|I] & A).
    + (* b is in the dropped tree; that tree is still owned elsewhere *)
      destruct R as (o & I & A'). exists o. split; trivial. cbn in A.
      rewrite Forall_forall in F. specialize (F o I). destruct o as [t'|b']; cbn in *.
      * assert (S : exists s, sub s t' /\ pa s = pa t).
        { clear - F A'. induction t' as [x y ts IH] using ptree_rect2. cbn in A'.
          destruct A' as [->|A]; [eexists; split; [apply sub_refl|reflexivity]|].
          apply in_flat_map in A as (t2 & T2 & A). apply phys_eq in F as (_ & _ & F).
          rewrite Forall_forall in *. destruct (IH t2 T2 (F t2 T2) A) as (s & Ss & Q).
          exists s. split; trivial. econstructor; eauto. }
        destruct S as (s & Ss & Q).
        assert (s = t) by (eapply phys_unique; eauto using sub_phys). subst s.
        now apply (sub_pas t t').
      * destruct A' as [->|[]]. congruence.
    + exists o. auto.
Qed.

Lemma WF_take : forall h G a c ts d x,
  WF h (Tree (PT a c ts) :: G) -> get h a = Some (Full 1 d) ->
  (x = None \/ x = Some Hole) ->
  WF (set h a x) ((match x with None => [] | Some _ => [Held a] end) ++ map Tree ts ++ G).
Proof.
  intros h G a c ts d x W E X. destruct (WF_unique h G (PT a c ts) d W E) as [U1 U2].
  cbn [pa] in U1, U2. destruct W as (W1 & W2 & W3). assert (L := get_lt _ _ _ E).
  apply Forall_cons_iff in W2 as [P F]. cbn [own_wf] in P.
  apply phys_eq in P as ((n & E') & K & P). rewrite E in E'. injection E' as <- ->.
  split; [|split].
  - intros b. specialize (W1 b). cbn [map oa pa] in W1. rewrite cnt_cons in W1.
    assert (D := indeg_set h a x b L). rewrite E in D. cbn in D.
    rewrite map_app, cnt_app, map_app, cnt_app, map_oa_Tree. rewrite K in D.
    assert (R : rc (get (set h a x) b) = if Nat.eq_dec a b then rc x else rc (get h b)).
    { destruct (Nat.eq_dec a b) as [<-|N]; [now rewrite get_set_eq|now rewrite get_set_ne]. }
    rewrite R. clear R. destruct (Nat.eq_dec a b) as [<-|N].
    + rewrite E in W1. destruct X; subst x; cbn [rc contrib map oa app] in *;
        rewrite ?cnt_cons; try destruct (Nat.eq_dec a a); try congruence; cbn [cnt count_occ]; lia.
    + destruct X; subst x; cbn [rc contrib map oa app] in *;
        rewrite ?cnt_cons; try destruct (Nat.eq_dec a b); try congruence; cbn [cnt count_occ]; lia.
  - apply Forall_app. split; [|apply Forall_app; split].
    + destruct X; subst x; constructor; [|constructor]. cbn. now apply get_set_eq.
    + rewrite Forall_forall in *. intros o I. apply in_map_iff in I as (t & <- & T). cbn.
      apply phys_set; auto. intros A. apply U2. apply in_flat_map. eauto.
    + rewrite Forall_forall in *. intros o I. apply own_set; auto.
  - intros b N. destruct (Nat.eq_dec a b) as [<-|D].
    + rewrite get_set_eq in N by trivial. destruct X; subst x; [congruence|].
      exists (Held a). split; [now left|now left].
    + rewrite get_set_ne in N by trivial. destruct (W3 b N) as (o & [<-|I] & A).
      * cbn in A. destruct A as [|A]; [congruence|]. apply in_flat_map in A as (t & T & A).
        exists (Tree t). split; trivial. apply in_app_iff. right. apply in_app_iff. left.
        now apply in_map.
      * exists o. split; trivial. apply in_app_iff. right. apply in_app_iff. now right.
Qed.

Lemma WF_fill : forall h G a c ts,
  WF h (Held a :: map Tree ts ++ G) -> kids c = map pa ts ->
  get h a = Some Hole /\ WF (set h a (Some (Full 1 c))) (Tree (PT a c ts) :: G).
Proof.
  intros h G a c ts (W1 & W2 & W3) K. apply Forall_cons_iff in W2 as [E F].
  cbn in E. split; [trivial|]. assert (L := get_lt _ _ _ E).
  assert (U : forall o, In o (map Tree ts ++ G) -> ~ In a (own_as o)).
  { intros o I A. rewrite Forall_forall in F. specialize (W1 a). rewrite E in W1.
    cbn [map oa rc] in W1. rewrite cnt_cons in W1.
    destruct (Nat.eq_dec a a) as [_|]; [|congruence].
    destruct (own_parent h o a (F o I) A) as [Q|Q]; [|lia].
    assert (In a (map oa (map Tree ts ++ G))) by (rewrite Q; now apply in_map).
    apply cnt_in in H. lia. }
  apply Forall_app in F as [F1 F2]. split; [|split].
  - intros b. specialize (W1 b). cbn [map oa pa] in *. rewrite cnt_cons in *.
    rewrite map_app, cnt_app, map_oa_Tree in W1.
    assert (D := indeg_set h a (Some (Full 1 c)) b L). rewrite E in D. cbn in D.
    rewrite K in D. destruct (Nat.eq_dec a b) as [<-|N].
    + rewrite get_set_eq by trivial. rewrite E in W1. cbn in *. lia.
    + rewrite get_set_ne by trivial. lia.
  - constructor.
    + cbn [own_wf]. rewrite phys_eq. split; [exists 1; now apply get_set_eq|]. split; trivial.
      rewrite Forall_forall in *. intros t T. apply phys_set; [apply (F1 (Tree t)); now apply in_map|].
      apply (U (Tree t)). apply in_app_iff. left. now apply in_map.
    + rewrite Forall_forall in *. intros o I. apply own_set; auto. apply U. apply in_app_iff. auto.
  - intros b N. destruct (Nat.eq_dec a b) as [<-|D].
    + eexists. split; [now left|]. cbn. auto.
    + rewrite get_set_ne in N by trivial. destruct (W3 b N) as (o & [<-|I] & A).
      * cbn in A. destruct A as [|[]]. congruence.
      * apply in_app_iff in I as [I|I].
        -- eexists. split; [now left|]. apply in_map_iff in I as (t & <- & T). cbn in *.
           right. apply in_flat_map. eauto.
        -- exists o. split; [now right|trivial].
Qed.

End P.
