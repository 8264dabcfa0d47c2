(** A panic in the [Drop] of an entry, and what it leaves of a red-black tree. *)
From Coq Require Import List NArith Arith Bool Lia Permutation Sorted.
From Verif Require Import Base Spec SpecMap SpecOrd Sim RBModel RBProofs RBHist RBIter RBExtra RBExtraProofs HashProofs DropModel DropProofs.
Import ListNotations.

(** [s] is [l] with some elements left out. *)
Inductive subseq {A} : list A -> list A -> Prop :=
| sub_nil : subseq [] []
| sub_keep : forall x s l, subseq s l -> subseq (x :: s) (x :: l)
| sub_skip : forall x s l, subseq s l -> subseq s (x :: l).

Lemma subseq_refl : forall A (l : list A), subseq l l.
Proof. induction l; now constructor. Qed.
Lemma subseq_nil : forall A (l : list A), subseq [] l.
Proof. induction l; now constructor. Qed.
Lemma subseq_app : forall A (a a' b b' : list A), subseq a a' -> subseq b b' -> subseq (a ++ b) (a' ++ b').
Proof. intros A a a' b b' H Hb. induction H; cbn [app]; [assumption|now constructor|now constructor]. Qed.
Lemma subseq_in : forall A (s l : list A) x, subseq s l -> In x s -> In x l.
Proof.
  intros A s l x H. induction H as [|y s l H IH|y s l H IH]; intros Hx; [destruct Hx| |right; auto].
  destruct Hx as [<-|Hx]; [now left|right; auto].
Qed.
Lemma subseq_trans : forall A (b c : list A), subseq b c -> forall a, subseq a b -> subseq a c.
Proof.
  intros A b c H. induction H as [|x s l H IH|x s l H IH]; intros a Ha; [assumption| |constructor; auto].
  inversion Ha as [|? ? ? H1|? ? ? H1]; subst; constructor; auto.
Qed.
Lemma subseq_sorted : forall A (R : A -> A -> Prop) s l, subseq s l -> StronglySorted R l -> StronglySorted R s.
Proof.
  intros A R s l H. induction H as [|x s l H IH|x s l H IH]; intros Hs; [assumption| |]; inversion Hs as [|? ? H1 H2]; subst.
  - constructor; [auto|]. rewrite Forall_forall in *. intros y Hy. apply H2. now apply (subseq_in _ _ _ _ H).
  - auto.
Qed.
Lemma subseq_skip_mid : forall A (a : list A) x b, subseq (a ++ b) (a ++ x :: b).
Proof. intros. apply subseq_app; [apply subseq_refl|]. constructor. apply subseq_refl. Qed.

Ltac rb_inv :=
  repeat (match goal with
  | H : rbt _ Leaf |- _ => apply rbt_leaf_inv in H
  | H : rbt _ (Tree _ Red _ _) |- _ => apply rbt_red_inv in H as (? & ? & ? & ?)
  | H : rbt _ (Tree _ Black _ _) |- _ => apply rbt_black_inv in H as (? & ? & ? & ?)
  | H : arbt _ (Tree _ Red _ _) |- _ => apply arbt_red in H as (? & ?)
  | H : arbt _ (Tree _ Black _ _) |- _ => apply arbt_black in H as (? & ? & ? & ?)
  | H : arbt _ Leaf |- _ => destruct H as [H|[]]
  | H : _ /\ _ |- _ => destruct H
  | H : S _ = S _ |- _ => injection H as H
  end; subst); cbn [notred] in *; try contradiction; try discriminate.

Ltac rb_make := repeat (first [assumption | exact I | apply rbt_leaf | apply rbt_black | apply rbt_red]).

Section Fuse.
Context {K V : Type}.
Variable dbg : bool.
Notation tree := (tree K V).
Notation node := (node K V).

(** One unfolding step of [d_fuse]. *)
Lemma d_fuse_tt : forall boom (n0 : node) (le : K * V) lc ll lr re rc rl rr,
  d_fuse dbg boom n0 (Tree le lc ll lr) (Tree re rc rl rr) =
  match lc, rc with
  | Black, Red =>
      fbind (d_fuse dbg boom n0 (Tree le lc ll lr) rl) (fun n => n) (fun '(node, _) =>
      Ok (Calm (mkNode re rc (some node) rr, true)))
  | Red, Black =>
      fbind (d_fuse dbg boom n0 lr (Tree re rc rl rr)) (fun n => n) (fun '(node, _) =>
      Ok (Calm (mkNode le lc ll (some node), true)))
  | Red, Red =>
      fbind (d_fuse dbg boom n0 lr rl) (fun n => n) (fun '(node, fused) =>
      let node := fuse_red_red (mkNode le lc ll Leaf) (mkNode re rc Leaf rr) node fused in
      drops (boom && negb fused) node (node, true))
  | Black, Black =>
      fbind (d_fuse dbg boom n0 lr rl) (fun n => n) (fun '(node, fused) =>
      let! node := fuse_black_black dbg (mkNode le lc ll Leaf) (mkNode re rc Leaf rr) node fused in
      drops (boom && negb fused) node (node, true))
  end.
Proof. intros. destruct lc, rc; reflexivity. Qed.

(** Without a panic it is [remove_fuse]. *)
Lemma d_fuse_calm : forall (n0 : node) (l r : tree), d_fuse dbg false n0 l r = calmly (remove_fuse dbg n0 l r).
Proof.
  intros n0. induction l as [|le lc ll IHll lr IHlr]; intros r; [destruct r; reflexivity|].
  induction r as [|re rc rl IHrl rr IHrr]; [reflexivity|]. rewrite d_fuse_tt. destruct lc, rc.
  - rewrite IHlr. change (remove_fuse dbg n0 (Tree le Red ll lr) (Tree re Red rl rr)) with
      (let! node := (let! (node, fused) := remove_fuse dbg n0 lr rl in
         Ok (fuse_red_red (mkNode le Red ll Leaf) (mkNode re Red Leaf rr) node fused)) in Ok (node, true)).
    destruct (remove_fuse dbg n0 lr rl) as [[n f]| |]; reflexivity.
  - rewrite IHlr. change (remove_fuse dbg n0 (Tree le Red ll lr) (Tree re Black rl rr)) with
      (let! node := (let! (node, _) := remove_fuse dbg n0 lr (Tree re Black rl rr) in
         Ok (mkNode le Red ll (some node))) in Ok (node, true)).
    destruct (remove_fuse dbg n0 lr (Tree re Black rl rr)) as [[n f]| |]; reflexivity.
  - rewrite IHrl. change (remove_fuse dbg n0 (Tree le Black ll lr) (Tree re Red rl rr)) with
      (let! node := (let! (node, _) := remove_fuse dbg n0 (Tree le Black ll lr) rl in
         Ok (mkNode re Red (some node) rr)) in Ok (node, true)).
    destruct (remove_fuse dbg n0 (Tree le Black ll lr) rl) as [[n f]| |]; reflexivity.
  - rewrite IHlr. change (remove_fuse dbg n0 (Tree le Black ll lr) (Tree re Black rl rr)) with
      (let! node := (let! (node, fused) := remove_fuse dbg n0 lr rl in
         fuse_black_black dbg (mkNode le Black ll Leaf) (mkNode re Black Leaf rr) node fused) in Ok (node, true)).
    destruct (remove_fuse dbg n0 lr rl) as [[n f]| |]; try reflexivity. cbn [calmly fbind bind].
    destruct (fuse_black_black dbg (mkNode le Black ll Leaf) (mkNode re Black Leaf rr) n f); reflexivity.
Qed.

Lemma inner_subseq : forall (le : K * V) lc ll lr re rc rl rr,
  subseq (elems lr ++ elems rl) (elems (Tree le lc ll lr) ++ elems (Tree re rc rl rr)).
Proof.
  intros. cbn [elems]. apply subseq_app.
  - apply (subseq_app _ [] _ _ _ (subseq_nil _ _)). constructor. apply subseq_refl.
  - rewrite <- (app_nil_r (elems rl)) at 1. apply subseq_app; [apply subseq_refl|apply subseq_nil].
Qed.

(** With a panic, at most four entries of the two subtrees are left. *)
Lemma d_fuse_thrown : forall (n0 : node) l r k, rbt k l -> rbt k r -> (l <> Leaf \/ r <> Leaf) ->
  exists n', d_fuse dbg true n0 l r = Ok (Thrown n') /\
    subseq (elems (some n')) (elems l ++ elems r) /\ length (elems (some n')) <= 4.
Proof.
  intros n0. induction l as [|le lc ll IHll lr IHlr]; intros r.
  - intros k Hl Hr Hne. destruct r as [|re rc rl rr]; [destruct Hne; congruence|].
    exists (mkNode re rc rl rr). split; [reflexivity|]. cbn [some elems n_entry n_color n_left n_right app]. split; [apply subseq_refl|].
    rb_inv. destruct rc; rb_inv. destruct rl as [|? [|] ? ?]; rb_inv; destruct rr as [|? [|] ? ?]; rb_inv. cbn. lia.
  - induction r as [|re rc rl IHrl rr IHrr]; intros k Hl Hr Hne.
    + exists (mkNode le lc ll lr). split; [reflexivity|]. cbn [some elems n_entry n_color n_left n_right]. rewrite app_nil_r. split; [apply subseq_refl|].
      rb_inv. destruct lc; rb_inv. destruct ll as [|? [|] ? ?]; rb_inv; destruct lr as [|? [|] ? ?]; rb_inv. cbn. lia.
    + rewrite d_fuse_tt. destruct lc, rc.
      * (* red, red *)
        clear IHrl IHrr. apply rbt_red_inv in Hl as (Hn1 & Hn2 & Hll & Hlr). apply rbt_red_inv in Hr as (Hn3 & Hn4 & Hrl & Hrr).
        assert (Hc : lr = Leaf /\ rl = Leaf \/ (lr <> Leaf \/ rl <> Leaf)).
        { destruct lr; [destruct rl|]; [left; auto|right; right; discriminate|right; left; discriminate]. }
        destruct Hc as [[-> ->]|Hc].
        { cbn. eexists. split; [reflexivity|]. rb_inv.
          destruct ll as [|? [|] ? ?]; rb_inv; destruct rr as [|? [|] ? ?]; rb_inv. destruct n0 as [e0 [|] l0 r0]; cbn; (split; [repeat constructor|lia]). }
        destruct (IHlr rl k Hlr Hrl Hc) as (n' & E & Hs & Hlen). rewrite E. exists n'. split; [reflexivity|]. split; [|assumption].
        eapply subseq_trans; [apply inner_subseq|exact Hs].
      * (* red, black *)
        clear IHrl IHrr. apply rbt_black_inv in Hr as (x & -> & ? & ?). rb_inv.
        destruct (IHlr (Tree re Black rl rr) (S x)) as (n' & E & Hs & Hlen); [assumption|rb_make|right; discriminate|].
        rewrite E. exists n'. split; [reflexivity|]. split; [|assumption]. eapply subseq_trans; [|exact Hs].
        cbn [elems]. apply subseq_app; [|apply subseq_refl].
        apply (subseq_app _ [] _ _ _ (subseq_nil _ _)). constructor. apply subseq_refl.
      * (* black, red *)
        apply rbt_black_inv in Hl as (x & -> & ? & ?). rb_inv.
        destruct (IHrl (S x)) as (n' & E & Hs & Hlen); [rb_make|assumption|left; discriminate|].
        rewrite E. exists n'. split; [reflexivity|]. split; [|assumption]. eapply subseq_trans; [|exact Hs].
        cbn [elems]. apply subseq_app; [apply subseq_refl|].
        rewrite <- (app_nil_r (elems rl)) at 1. apply subseq_app; [apply subseq_refl|apply subseq_nil].
      * (* black, black *)
        clear IHrl IHrr. apply rbt_black_inv in Hl as (x & -> & Hll & Hlr).
        apply rbt_black_inv in Hr as (x' & Ex & Hrl & Hrr). injection Ex as <-.
        assert (Hc : lr = Leaf /\ rl = Leaf \/ (lr <> Leaf \/ rl <> Leaf)).
        { destruct lr; [destruct rl|]; [left; auto|right; right; discriminate|right; left; discriminate]. }
        destruct Hc as [[-> ->]|Hc].
        { change (d_fuse dbg true n0 Leaf Leaf) with (Ok (@Calm node _ (n0, false))). cbn [fbind bind]. apply rbt_leaf_inv in Hlr. subst x.
          assert (E : fuse_black_black dbg (mkNode le Black ll Leaf) (mkNode re Black Leaf rr) n0 false
                      = remove_balance_left dbg (mkNode le Red ll (Tree re Black Leaf rr))).
          { unfold fuse_black_black. now destruct (n_color n0). }
          destruct (remove_balance_left_ok dbg 0 le Red ll (Tree re Black Leaf rr)) as (n' & En & El & _).
          { now left. } { now constructor. }
          rewrite E, En. exists n'. split; [reflexivity|]. rewrite El. cbn [elems]. split.
          - rewrite <- app_assoc. cbn [app]. apply subseq_refl.
          - destruct ll as [|? [|] ? ?]; rb_inv; destruct rr as [|? [|] ? ?]; rb_inv;
              repeat match goal with H : rbt 0 ?t |- _ => is_var t; destruct t as [|? [|] ? ?]; rb_inv end; cbn; lia. }
        destruct (IHlr rl x Hlr Hrl Hc) as (n' & E & Hs & Hlen). rewrite E. exists n'. split; [reflexivity|]. split; [|assumption].
        eapply subseq_trans; [apply inner_subseq|exact Hs].
Qed.
End Fuse.

Section Calls.
Context {K V Q : Type}.
Variable dbg : bool.
Variable kcmp : K -> K -> comparison.
Variable borrow : K -> Q.
Variable qcmp : Q -> Q -> comparison.
Notation tree := (tree K V).

(** ** Insertion *)
Lemma d_ins_calm : forall k v (t : tree) is_root,
  d_ins kcmp false t k v is_root = calmly (ins kcmp t k v is_root).
Proof.
  intros k v. induction t as [|e c l IHl r IHr]; intros is_root; [reflexivity|]. cbn [d_ins ins].
  destruct (kcmp k (fst e)); [now destruct is_root| |].
  - rewrite IHl. destruct (ins kcmp l k v false) as [[l' b]| |]; [|reflexivity|reflexivity]. cbn [calmly fbind bind].
    destruct (if b then balance (set_left (mkNode e c l r) l') else Ok (set_left (mkNode e c l r) l')); reflexivity.
  - rewrite IHr. destruct (ins kcmp r k v false) as [[r' b]| |]; [|reflexivity|reflexivity]. cbn [calmly fbind bind].
    destruct (if b then balance (set_right (mkNode e c l r) r') else Ok (set_right (mkNode e c l r) r')); reflexivity.
Qed.

(** The panic comes when the tree is finished; recolouring the root finds nothing to do. *)
Lemma d_ins_thrown : forall k v (t : tree) is_root, (is_root = true -> notred t) ->
  d_ins kcmp true t k v is_root =
  (let! (t', new) := ins kcmp t k v is_root in Ok (if new : bool then Calm (t', new) else Thrown t')).
Proof.
  intros k v. induction t as [|e c l IHl r IHr]; intros is_root Hr; [reflexivity|]. cbn [d_ins ins].
  assert (Hc : is_root = true -> c = Black) by (intros E; destruct c; [now destruct (Hr E)|reflexivity]).
  destruct (kcmp k (fst e)).
  - (destruct is_root; [rewrite (Hc eq_refl)|]; reflexivity).
  - rewrite IHl by discriminate. destruct (ins kcmp l k v false) as [[l' [|]]| |]; [| |reflexivity|reflexivity]; cbn [fbind bind].
    + destruct (balance _); reflexivity.
    + (destruct is_root; [rewrite (Hc eq_refl)|]; reflexivity).
  - rewrite IHr by discriminate. destruct (ins kcmp r k v false) as [[r' [|]]| |]; [| |reflexivity|reflexivity]; cbn [fbind bind].
    + destruct (balance _); reflexivity.
    + (destruct is_root; [rewrite (Hc eq_refl)|]; reflexivity).
Qed.

Lemma d_rb_insert_lands : forall boom (m : rbmap K V) k v, notred (rb_root m) ->
  lands0 boom (d_rb_insert_mut kcmp boom m k v) (rb_insert_mut kcmp m k v).
Proof.
  intros boom m k v Hm. unfold d_rb_insert_mut, rb_insert_mut, n_insert. destruct boom.
  - rewrite (d_ins_thrown k v (rb_root m) true (fun _ => Hm)).
    destruct (ins kcmp (rb_root m) k v true) as [[t [|]]| |]; [left|right; split| |]; try reflexivity; now left.
  - rewrite d_ins_calm. left. destruct (ins kcmp (rb_root m) k v true) as [[t b]| |]; reflexivity.
Qed.

(** ** Removal *)
Lemma d_del_calm : forall q (t : tree) is_root,
  d_del dbg borrow qcmp false t q is_root = calmly (del dbg borrow qcmp t q is_root).
Proof.
  intros q. induction t as [|e c l IHl r IHr]; intros is_root; [reflexivity|]. cbn [d_del del].
  destruct (qcmp q (borrow (fst e))).
  - rewrite d_fuse_calm. cbn [n_left n_right set_left set_right n_entry n_color].
    destruct (remove_fuse dbg _ l r) as [[n f]| |]; try reflexivity. cbn [calmly fbind bind]. destruct f, is_root; reflexivity.
  - rewrite IHl. destruct (del dbg borrow qcmp l q false) as [[l' b]| |]; try reflexivity. cbn [calmly fbind bind].
    destruct (left_color _) as [[|]|]; try reflexivity. destruct (remove_balance_left _ _); reflexivity.
  - rewrite IHr. destruct (del dbg borrow qcmp r q false) as [[r' b]| |]; try reflexivity. cbn [calmly fbind bind].
    destruct (right_color _) as [[|]|]; try reflexivity. destruct (remove_balance_right _ _); reflexivity.
Qed.

(** A key that is not there: nothing is given up. *)
Lemma d_del_absent : forall boom q (t : tree) is_root, t_get borrow qcmp t q = None ->
  d_del dbg borrow qcmp boom t q is_root = calmly (del dbg borrow qcmp t q is_root).
Proof.
  intros boom q. induction t as [|e c l IHl r IHr]; intros is_root Hg; [reflexivity|]. cbn [d_del del t_get] in *.
  destruct (qcmp q (borrow (fst e))); [discriminate| |].
  - rewrite IHl by assumption. destruct (del dbg borrow qcmp l q false) as [[l' b]| |]; try reflexivity. cbn [calmly fbind bind].
    destruct (left_color _) as [[|]|]; try reflexivity. destruct (remove_balance_left _ _); reflexivity.
  - rewrite IHr by assumption. destruct (del dbg borrow qcmp r q false) as [[r' b]| |]; try reflexivity. cbn [calmly fbind bind].
    destruct (right_color _) as [[|]|]; try reflexivity. destruct (remove_balance_right _ _); reflexivity.
Qed.

(** A key that is there: what is left is the tree without the subtree below the entry, of which
    at most four entries stay. *)
Lemma d_del_thrown : forall q (t : tree) h e is_root, rbt h t -> t_get borrow qcmp t q = Some e ->
  exists a l r b t', elems t = a ++ (l ++ e :: r) ++ b /\
    d_del dbg borrow qcmp true t q is_root = Ok (Thrown t') /\
    exists s, elems t' = a ++ s ++ b /\ subseq s (l ++ r) /\ length s <= 4 /\
      (match t with Tree x _ _ _ => qcmp q (borrow (fst x)) = Eq | Leaf => False end -> a = [] /\ b = []).
Proof.
  intros q. induction t as [|x c l IHl r IHr]; intros h e is_root Ht Hg; [discriminate|]. cbn [d_del t_get] in *.
  pose proof (rbt_kids _ _ _ _ _ _ _ Ht) as (h' & Hl & Hr & _).
  destruct (qcmp q (borrow (fst x))) eqn:Eq.
  - injection Hg as ->. exists [], (elems l), (elems r), []. cbn [n_left n_right set_left set_right n_entry n_color].
    assert (Hc : l = Leaf /\ r = Leaf \/ (l <> Leaf \/ r <> Leaf)).
    { destruct l; [destruct r|]; [left; auto|right; right; discriminate|right; left; discriminate]. }
    destruct Hc as [[-> ->]|Hc].
    + exists Leaf. split; [reflexivity|]. split; [destruct is_root; reflexivity|]. exists []. repeat split; cbn; [constructor|lia].
    + match goal with |- context [d_fuse dbg true ?n l r] =>
        destruct (d_fuse_thrown dbg n l r h' Hl Hr Hc) as (n' & E & Hs & Hlen) end.
      exists (some n'). rewrite app_nil_r. split; [reflexivity|]. rewrite E. split; [reflexivity|].
      exists (elems (some n')). rewrite app_nil_r. repeat split; assumption.
  - destruct (IHl h' e false Hl Hg) as (a & l1 & r1 & b & t' & E1 & E2 & s & E3 & Hs & Hlen & _).
    exists a, l1, r1, (b ++ x :: elems r). rewrite E2. eexists. split; [|split; [reflexivity|]].
    + cbn [elems]. rewrite E1. now rewrite <- !app_assoc.
    + exists s. cbn [some set_left n_entry n_color n_left n_right elems]. rewrite E3. split; [now rewrite <- !app_assoc|].
      split; [assumption|]. split; [assumption|].
      intros E0. congruence.
  - destruct (IHr h' e false Hr Hg) as (a & l1 & r1 & b & t' & E1 & E2 & s & E3 & Hs & Hlen & _).
    exists (elems l ++ x :: a), l1, r1, b. rewrite E2. eexists. split; [|split; [reflexivity|]].
    + cbn [elems]. rewrite E1. now rewrite <- !app_assoc.
    + exists s. cbn [some set_right n_entry n_color n_left n_right elems]. rewrite E3. split; [now rewrite <- !app_assoc|].
      split; [assumption|]. split; [assumption|]. intros E0. congruence.
Qed.
End Calls.

(** ** Iteration when the size exceeds the number of entries *)
Section Stale.
Context {K V : Type}.
Variable kcmp : K -> K -> comparison.
Hypothesis OL : ord_laws kcmp.

Definition it_stale (m : rbmap K V) (i : rbiter K V) (L : list (K * V)) : Prop :=
  ri_ok kcmp (fun k => k) kcmp Unbounded Unbounded m (it_range i) L /\ length L <= it_size i.

Lemma it_stale_sim : forall m : rbmap K V, sorted kcmp (elems (rb_root m)) -> forall i L, it_stale m i L ->
  (exists i', it_next kcmp i = Ok (hd_error L, i') /\ it_stale m i' (tl L)) /\
  (exists i', it_next_back kcmp i = Ok (last_error L, i') /\ it_stale m i' (removelast L)).
Proof using OL.
  intros m Hs i L (Hr & Hz). unfold it_next, it_next_back.
  destruct (it_size i) as [|z] eqn:Ez.
  - destruct L; [|simpl in Hz; lia]. cbn [Nat.ltb Nat.leb].
    split; exists i; (split; [reflexivity|split; [exact Hr|rewrite Ez; exact Hz]]).
  - assert (E : Nat.ltb 0 (S z) = true) by reflexivity. rewrite E, csub_S. cbn [bind]. split.
    + destruct (ri_next_ok kcmp (fun k => k) kcmp OL (KBi kcmp) Unbounded Unbounded m (it_range i) _ Hs Hr) as (r & -> & Hr').
      cbn [bind]. eexists. split; [reflexivity|]. split; [exact Hr'|]. cbn [it_size]. destruct L; simpl in Hz |- *; lia.
    + destruct (ri_next_back_ok kcmp (fun k => k) kcmp OL (KBi kcmp) Unbounded Unbounded m (it_range i) _ Hs Hr) as (r & -> & Hr').
      cbn [bind]. eexists. split; [reflexivity|]. split; [exact Hr'|]. cbn [it_size].
      destruct L as [|b L] using rev_ind; [simpl; lia|]. rewrite removelast_snoc. rewrite app_length in Hz. cbn in Hz. lia.
Qed.

Lemma rb_entries_stale : forall m : rbmap K V, sorted kcmp (elems (rb_root m)) -> length (elems (rb_root m)) <= rb_size m ->
  rb_entries kcmp m = Ok (elems (rb_root m)).
Proof using OL.
  intros m Hs Hz. unfold rb_entries.
  eapply sim_collect; [intros i L Hi; exact (proj1 (it_stale_sim m Hs i L Hi))| |lia]. split; [|exact Hz]. cbn [it_new it_range].
  pose proof (ri_new_ok kcmp (fun k => k) kcmp Unbounded Unbounded m) as H. rewrite inr_all in H. exact H.
Qed.
End Stale.
