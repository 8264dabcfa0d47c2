(** Red-black tree: balancing, insertion and removal preserve the contents and the invariant. *)
From Coq Require Import List NArith Arith Bool Lia Permutation Sorted.
From Verif Require Import Base Spec SpecMap SpecOrd Sim RBModel.
Import ListNotations.

Section Tree.
Context {K V : Type}.
Notation tree := (tree K V).
Notation node := (node K V).

(** In-order contents. *)
Fixpoint elems (t : tree) : list (K * V) :=
  match t with Leaf => [] | Tree e _ l r => elems l ++ e :: elems r end.

(** No red node has a red child and every path has [n] black nodes. *)
Definition notred (t : tree) : Prop := match t with Tree _ Red _ _ => False | _ => True end.
Inductive rbt : nat -> tree -> Prop :=
| rbt_leaf : rbt 0 Leaf
| rbt_red : forall n e l r, notred l -> notred r -> rbt n l -> rbt n r -> rbt n (Tree e Red l r)
| rbt_black : forall n e l r, rbt n l -> rbt n r -> rbt (S n) (Tree e Black l r).
(** As above, but the root may be a red node with red children. *)
Definition arbt (n : nat) (t : tree) : Prop :=
  rbt n t \/ match t with Tree _ Red l r => rbt n l /\ rbt n r | _ => False end.

Lemma arbt_notred : forall n t, arbt n t -> notred t -> rbt n t.
Proof. intros n [|e [|] l r] [H|H] Hn; auto; contradiction. Qed.

Lemma arbt_red : forall n e l r, arbt n (Tree e Red l r) -> rbt n l /\ rbt n r.
Proof. intros n e l r [H|H]; [inversion H; auto|exact H]. Qed.

Lemma arbt_black : forall n e l r, arbt n (Tree e Black l r) -> exists n', n = S n' /\ rbt n' l /\ rbt n' r.
Proof. intros n e l r [H|[]]. inversion H; subst. eauto. Qed.

Lemma rbt_leaf_inv : forall n, rbt n Leaf -> n = 0.
Proof. intros n H. now inversion H. Qed.
Lemma rbt_red_inv : forall n e l r, rbt n (Tree e Red l r) -> notred l /\ notred r /\ rbt n l /\ rbt n r.
Proof. intros n e l r H. inversion H; subst. auto. Qed.
Lemma rbt_black_inv : forall n e l r, rbt n (Tree e Black l r) -> exists n', n = S n' /\ rbt n' l /\ rbt n' r.
Proof. intros n e l r H. inversion H; subst. eauto. Qed.

Ltac rb_inv :=
  repeat (match goal with
  | H : rbt _ Leaf |- _ => apply rbt_leaf_inv in H
  | H : rbt _ (Tree _ Red _ _) |- _ => apply rbt_red_inv in H as (? & ? & ? & ?)
  | H : rbt _ (Tree _ Black _ _) |- _ => apply rbt_black_inv in H as (? & ? & ? & ?)
  | H : arbt _ (Tree _ Red _ _) |- _ => apply arbt_red in H as (? & ?)
  | H : arbt _ (Tree _ Black _ _) |- _ => apply arbt_black in H as (? & ? & ? & ?)
  | H : arbt _ Leaf |- _ => destruct H as [H|[]]
  | H : _ /\ _ |- _ => destruct H
  | H : S _ = S _ |- _ => injection H as H
  end; subst); cbn [notred] in *; try contradiction; try discriminate.

Ltac rb_make := repeat (first [assumption | exact I | apply rbt_leaf | apply rbt_black | apply rbt_red]).

Ltac sides t := destruct t as [|? [|] [|? [|] ? ?] [|? [|] ? ?]].

Ltac lists := cbn [elems some n_entry n_color n_left n_right]; repeat (rewrite <- ?app_assoc, <- ?app_comm_cons; cbn [app]); reflexivity.

(** ** balance *)
Lemma balance_elems : forall n : node, exists n', balance n = Ok n' /\ elems (some n') = elems (some n).
Proof.
  intros [e c l r]. destruct c; [eexists; split; reflexivity|].
  sides l; sides r; (eexists; split; [cbv; reflexivity|]); lists.
Qed.

Lemma balance_rb : forall k e l r n',
  arbt k l /\ rbt k r \/ rbt k l /\ arbt k r ->
  balance (mkNode e Black l r) = Ok n' -> rbt (S k) (some n').
Proof.
  intros k e l r n' H E.
  sides l; sides r; cbv in E; injection E as <-; cbn [some n_entry n_color n_left n_right];
    destruct H as [[H1 H2]|[H1 H2]]; rb_inv; rb_make.
Qed.

Lemma balance_ok : forall k e l r, arbt k l /\ rbt k r \/ rbt k l /\ arbt k r ->
  exists n', balance (mkNode e Black l r) = Ok n' /\ elems (some n') = elems l ++ e :: elems r /\ rbt (S k) (some n').
Proof.
  intros k e l r H. destruct (balance_elems (mkNode e Black l r)) as (n' & E & El).
  exists n'. split; [exact E|]. split; [exact El|]. eapply balance_rb; eassumption.
Qed.

(** ** remove_balance *)
Lemma remove_balance_ok : forall dbg k e l r, arbt k l /\ rbt k r \/ rbt k l /\ arbt k r ->
  exists n', remove_balance dbg (mkNode e Black l r) = Ok n' /\ elems (some n') = elems l ++ e :: elems r /\ rbt (S k) (some n').
Proof.
  intros dbg k e l r H.
  destruct (balance_ok k e l r H) as (n' & E & El & R).
  unfold remove_balance, left_color, right_color, debug_assert. cbn [n_left n_right n_color negb]. rewrite andb_false_r.
  destruct l as [|? [|] ? ?]; [|destruct r as [|? [|] ? ?]|]; cbn [tcolor bind]; eauto.
  eexists. split; [reflexivity|]. split; [reflexivity|].
  cbn [some n_entry n_color n_left n_right set_left set_right set_color as_node unwrap].
  destruct H as [[H1 H2]|[H1 H2]]; rb_inv; rb_make.
Qed.

(** ** remove_balance_left and remove_balance_right *)
Lemma red_or_not : forall t : tree, (exists e l r, t = Tree e Red l r) \/ notred t.
Proof. intros [|e [|] l r]; [right; exact I|left; eauto|right; exact I]. Qed.

Lemma remove_balance_left_ok : forall dbg k e c l r, arbt k l -> rbt (S k) r ->
  exists n', remove_balance_left dbg (mkNode e c l r) = Ok n' /\ elems (some n') = elems l ++ e :: elems r /\
    arbt (S k) (some n') /\ (notred r -> rbt (S k) (some n')).
Proof.
  intros dbg k e c l r Hl Hr. destruct (red_or_not l) as [(el & ll & lr & ->)|Hn].
  - exists (mkNode e Red (Tree el Black ll lr) r). split; [reflexivity|]. split; [reflexivity|]. rb_inv. cbn. split.
    + right. split; rb_make.
    + intros Hr'. rb_make.
  - pose proof (arbt_notred _ _ Hl Hn) as Hl'.
    destruct r as [|er [|] rl rr]; [inversion Hr| |].
    + (* red right sibling *)
      rb_inv. destruct rl as [|erl [|] rll rlr]; [inversion H1|contradiction|].
      destruct rr as [|err [|] rrl rrr]; [inversion H2|contradiction|]. rb_inv.
      destruct (remove_balance_ok dbg x0 er rlr (Tree err Red rrl rrr)) as (n' & E & Ee & R); [right; split; [assumption|right; auto]|].
      exists (mkNode erl Red (Tree e Black l rll) (some n')).
      assert (Eq : remove_balance_left dbg (mkNode e c l (Tree er Red (Tree erl Black rll rlr) (Tree err Black rrl rrr))) =
        let! x := remove_balance dbg (mkNode er Black rlr (Tree err Red rrl rrr)) in Ok (mkNode erl Red (Tree e Black l rll) (some x))).
      { destruct l as [|? [|] ? ?]; [reflexivity|contradiction|reflexivity]. }
      rewrite Eq, E. split; [reflexivity|]. cbn [elems some n_entry n_color n_left n_right] in *. rewrite Ee. split; [lists|].
      split; [right; split; [rb_make|exact R]|intros []].
    + destruct (remove_balance_ok dbg k e l (Tree er Red rl rr)) as (n' & E & Ee & R).
      { right. split; [assumption|]. rb_inv. right; auto. }
      exists n'. split; [|split; [exact Ee|split; [left; exact R|auto]]].
      destruct l as [|? [|] ? ?]; [exact E|contradiction|exact E].
Qed.

Lemma remove_balance_right_ok : forall dbg k e c l r, rbt (S k) l -> arbt k r ->
  exists n', remove_balance_right dbg (mkNode e c l r) = Ok n' /\ elems (some n') = elems l ++ e :: elems r /\
    arbt (S k) (some n') /\ (notred l -> rbt (S k) (some n')).
Proof.
  intros dbg k e c l r Hl Hr. destruct (red_or_not r) as [(er & rl & rr & ->)|Hn].
  - exists (mkNode e Red l (Tree er Black rl rr)). split; [|split; [reflexivity|]].
    + destruct l as [|? [|] ? [|? [|] ? ?]]; reflexivity.
    + rb_inv. cbn. split.
      * right. split; rb_make.
      * intros Hr'. rb_make.
  - pose proof (arbt_notred _ _ Hr Hn) as Hr'.
    destruct l as [|el [|] ll lr]; [inversion Hl| |].
    + rb_inv. destruct ll as [|ell [|] lll llr]; [inversion H1|contradiction|].
      destruct lr as [|elr [|] lrl lrr]; [inversion H2|contradiction|]. rb_inv.
      destruct (remove_balance_ok dbg x0 el (Tree ell Red lll llr) lrl) as (n' & E & Ee & R); [left; split; [right; auto|assumption]|].
      exists (mkNode elr Red (some n') (Tree e Black lrr r)).
      assert (Eq : remove_balance_right dbg (mkNode e c (Tree el Red (Tree ell Black lll llr) (Tree elr Black lrl lrr)) r) =
        let! x := remove_balance dbg (mkNode el Black (Tree ell Red lll llr) lrl) in Ok (mkNode elr Red (some x) (Tree e Black lrr r))).
      { destruct r as [|? [|] ? ?]; [reflexivity|contradiction|reflexivity]. }
      rewrite Eq, E. split; [reflexivity|]. cbn [elems some n_entry n_color n_left n_right] in *. rewrite Ee. split; [lists|].
      split; [right; split; [exact R|rb_make]|intros []].
    + destruct (remove_balance_ok dbg k e (Tree el Red ll lr) r) as (n' & E & Ee & R).
      { left. split; [|assumption]. rb_inv. right; auto. }
      exists n'. split; [|split; [exact Ee|split; [left; exact R|auto]]].
      destruct r as [|? [|] ? ?]; [exact E|contradiction|exact E].
Qed.

(** ** remove_fuse *)
(** The tree a fuse result stands for. *)
Definition fused_tree (x : node * bool) : tree := if snd x then some (fst x) else Leaf.

Lemma fuse_rr : forall dbg (n0 : node) (le : K * V) ll lr re rl rr,
  remove_fuse dbg n0 (Tree le Red ll lr) (Tree re Red rl rr) =
  let! x := remove_fuse dbg n0 lr rl in
  Ok (match fused_tree x with
      | Tree fe Red fl fr => mkNode fe Red (Tree le Red ll fl) (Tree re Red fr rr)
      | ft => mkNode le Red ll (Tree re Red ft rr)
      end, true).
Proof.
  intros. transitivity (let! node := (let! (node, fused) := remove_fuse dbg n0 lr rl in
    Ok (fuse_red_red (mkNode le Red ll Leaf) (mkNode re Red Leaf rr) node fused)) in Ok (node, true)); [reflexivity|].
  destruct (remove_fuse dbg n0 lr rl) as [[[e [|] l r] [|]]| |]; reflexivity.
Qed.

Lemma fuse_bb : forall dbg (n0 : node) (le : K * V) ll lr re rl rr,
  remove_fuse dbg n0 (Tree le Black ll lr) (Tree re Black rl rr) =
  let! x := remove_fuse dbg n0 lr rl in
  let! n := match fused_tree x with
      | Tree fe Red fl fr => Ok (mkNode fe Red (Tree le Black ll fl) (Tree re Black fr rr))
      | ft => remove_balance_left dbg (mkNode le Red ll (Tree re Black ft rr))
      end in Ok (n, true).
Proof.
  intros. transitivity (let! node := (let! (node, fused) := remove_fuse dbg n0 lr rl in
    fuse_black_black dbg (mkNode le Black ll Leaf) (mkNode re Black Leaf rr) node fused) in Ok (node, true)); [reflexivity|].
  destruct (remove_fuse dbg n0 lr rl) as [[[e [|] l r] [|]]| |]; reflexivity.
Qed.

Lemma fuse_br : forall dbg (n0 : node) (le : K * V) ll lr re rl rr,
  remove_fuse dbg n0 (Tree le Black ll lr) (Tree re Red rl rr) =
  let! x := remove_fuse dbg n0 (Tree le Black ll lr) rl in
  Ok (mkNode re Red (some (fst x)) rr, true).
Proof.
  intros. transitivity (let! node := (let! (node, _) := remove_fuse dbg n0 (Tree le Black ll lr) rl in
    Ok (mkNode re Red (some node) rr)) in Ok (node, true)); [reflexivity|].
  destruct (remove_fuse dbg n0 (Tree le Black ll lr) rl) as [[n b]| |]; reflexivity.
Qed.

Lemma fuse_rb : forall dbg (n0 : node) (le : K * V) ll lr re rl rr,
  remove_fuse dbg n0 (Tree le Red ll lr) (Tree re Black rl rr) =
  let! x := remove_fuse dbg n0 lr (Tree re Black rl rr) in
  Ok (mkNode le Red ll (some (fst x)), true).
Proof.
  intros. transitivity (let! node := (let! (node, _) := remove_fuse dbg n0 lr (Tree re Black rl rr) in
    Ok (mkNode le Red ll (some node))) in Ok (node, true)); [reflexivity|].
  destruct (remove_fuse dbg n0 lr (Tree re Black rl rr)) as [[n b]| |]; reflexivity.
Qed.

Lemma fused_some : forall (x : node * bool), fused_tree x <> Leaf -> fused_tree x = some (fst x).
Proof. intros [n [|]] H; [reflexivity|]. now contradiction H. Qed.

Lemma elems_nil : forall t, elems t = [] -> t = Leaf.
Proof. intros [|e c l r] H; [reflexivity|]. cbn in H. destruct (elems l); discriminate. Qed.

Lemma remove_fuse_ok : forall dbg (n0 : node) l r k, rbt k l -> rbt k r ->
  exists x, remove_fuse dbg n0 l r = Ok x /\ elems (fused_tree x) = elems l ++ elems r /\
    arbt k (fused_tree x) /\ (notred l -> notred r -> rbt k (fused_tree x)).
Proof.
  intros dbg n0. induction l as [|le lc ll IHll lr IHlr]; intros r.
  - intros k Hl Hr. destruct r as [|re rc rl rr].
    + exists (n0, false). split; [reflexivity|]. split; [reflexivity|]. cbn. split; [left|intros _ _]; exact Hl.
    + exists (mkNode re rc rl rr, true). split; [reflexivity|]. split; [reflexivity|]. cbn. split; [left|intros _ _]; exact Hr.
  - induction r as [|re rc rl IHrl rr IHrr]; intros k Hl Hr.
    + exists (mkNode le lc ll lr, true). split; [reflexivity|]. cbn [fused_tree fst snd elems some n_entry n_color n_left n_right].
      rewrite app_nil_r. split; [reflexivity|]. split; [left; exact Hl|intros _ _; exact Hl].
    + destruct lc, rc.
      * (* red, red *)
        clear IHrl IHrr. rb_inv.
        destruct (IHlr rl k) as (x & E & Ee & Ha & Hb); [assumption|assumption|].
        specialize (Hb ltac:(assumption) ltac:(assumption)).
        rewrite fuse_rr, E. cbn [bind]. eexists. split; [reflexivity|]. cbn [fused_tree fst snd].
        destruct (red_or_not (fused_tree x)) as [(fe & fl & fr & Ef)|Hn].
        -- rewrite Ef in *. cbn [elems] in Ee. rb_inv. split; [|split; [right; split; rb_make|intros []]].
           cbn [some elems n_entry n_color n_left n_right]. rewrite <- !app_assoc. cbn [app].
           rewrite (app_assoc _ (fe :: _)) , <- (app_assoc _ [fe]) || idtac.
           transitivity (elems ll ++ le :: (elems fl ++ fe :: elems fr) ++ re :: elems rr); [now rewrite <- app_assoc|].
           rewrite Ee. now rewrite <- app_assoc.
        -- assert (Hx : match fused_tree x with
             | Tree fe Red fl fr => mkNode fe Red (Tree le Red ll fl) (Tree re Red fr rr)
             | ft => mkNode le Red ll (Tree re Red ft rr) end = mkNode le Red ll (Tree re Red (fused_tree x) rr)).
           { destruct (fused_tree x) as [|? [|] ? ?]; [reflexivity|contradiction|reflexivity]. }
           rewrite Hx. split; [|split; [right; split; rb_make|intros []]].
           cbn [some elems n_entry n_color n_left n_right]. rewrite Ee, <- !app_assoc. reflexivity.
      * (* red, black *)
        clear IHrl IHrr. apply rbt_black_inv in Hr as (x & -> & ? & ?). rb_inv.
        destruct (IHlr (Tree re Black rl rr) (S x)) as (y & E & Ee & Ha & Hb); [assumption|rb_make|].
        specialize (Hb ltac:(assumption) I).
        rewrite fuse_rb, E. cbn [bind]. eexists. split; [reflexivity|]. cbn [fused_tree fst snd].
        rewrite <- fused_some by (intros Z; rewrite Z in Ee; cbn in Ee; destruct (elems lr), (elems rl); discriminate).
        cbn [some elems n_entry n_color n_left n_right]. rewrite Ee, <- !app_assoc. split; [reflexivity|].
        split; [right; split; rb_make|intros []].
      * (* black, red *)
        apply rbt_black_inv in Hl as (x & -> & ? & ?). rb_inv.
        destruct (IHrl (S x)) as (y & E & Ee & Ha & Hb); [rb_make|assumption|].
        specialize (Hb I ltac:(assumption)).
        rewrite fuse_br, E. cbn [bind]. eexists. split; [reflexivity|]. cbn [fused_tree fst snd].
        rewrite <- fused_some by (intros Z; rewrite Z in Ee; cbn in Ee; destruct (elems ll), (elems rl); discriminate).
        cbn [some elems n_entry n_color n_left n_right]. rewrite Ee. cbn [elems]. rewrite <- !app_assoc. split; [reflexivity|].
        split; [right; split; rb_make|intros _ []].
      * (* black, black *)
        clear IHrl IHrr. apply rbt_black_inv in Hl as (x & -> & Hll & Hlr).
        apply rbt_black_inv in Hr as (x' & Ex & Hrl & Hrr). injection Ex as <-.
        destruct (IHlr rl x) as (y & E & Ee & Ha & _); [assumption|assumption|].
        rewrite fuse_bb, E. cbn [bind].
        destruct (red_or_not (fused_tree y)) as [(fe & fl & fr & Ef)|Hn].
        -- rewrite Ef in *. cbn [elems] in Ee. cbn [bind]. eexists. split; [reflexivity|].
           cbn [fused_tree fst snd some elems n_entry n_color n_left n_right]. rb_inv.
           assert (rbt (S x) (Tree fe Red (Tree le Black ll fl) (Tree re Black fr rr))) by rb_make.
           split; [|split; [left|intros _ _]; assumption]. rewrite <- !app_assoc. cbn [app].
           transitivity (elems ll ++ le :: (elems fl ++ fe :: elems fr) ++ re :: elems rr); [now rewrite <- app_assoc|].
           rewrite Ee. now rewrite <- app_assoc.
        -- assert (Hx : match fused_tree y with
             | Tree fe Red fl fr => Ok (mkNode fe Red (Tree le Black ll fl) (Tree re Black fr rr))
             | ft => remove_balance_left dbg (mkNode le Red ll (Tree re Black ft rr)) end =
             remove_balance_left dbg (mkNode le Red ll (Tree re Black (fused_tree y) rr))).
           { destruct (fused_tree y) as [|? [|] ? ?]; [reflexivity|contradiction|reflexivity]. }
           rewrite Hx.
           destruct (remove_balance_left_ok dbg x le Red ll (Tree re Black (fused_tree y) rr)) as (n' & En & El & An & Rn).
           { now left. } { apply rbt_black; [now apply arbt_notred|assumption]. }
           rewrite En. cbn [bind]. eexists. split; [reflexivity|]. cbn [fused_tree fst snd]. rewrite El. cbn [elems]. rewrite Ee.
           split; [now rewrite <- !app_assoc|]. split; [exact An|intros _ _; now apply Rn].
Qed.
End Tree.
