(** RedBlackTreeMap with user code that keeps no law: proofs. *)
From Coq Require Import List NArith Arith Bool Lia Permutation Sorted.
From Verif Require Import Base Spec SpecMap SpecOrd SpecLoose Sim RBModel RBProofs RBHist RBIter RBExtraProofs LawlessModel.
Import ListNotations.

Section L.
Context {A : Type}.
Implicit Types (x y e : A) (l r : list A).
Lemma more_l : forall x l l' r, one_more x l l' -> one_more x (l ++ r) (l' ++ r).
Proof. intros x l l' r (a & b & -> & ->). exists a, (b ++ r). now rewrite <- !app_assoc. Qed.
Lemma more_r : forall x e l r r', one_more x r r' -> one_more x (l ++ e :: r) (l ++ e :: r').
Proof. intros x e l r r' (a & b & -> & ->). exists (l ++ e :: a), b. now rewrite <- !app_assoc. Qed.
Lemma swap_l : forall y x l l' r, one_swapped y x l l' -> one_swapped y x (l ++ r) (l' ++ r).
Proof. intros y x l l' r (a & b & -> & ->). exists a, (b ++ r). now rewrite <- !app_assoc. Qed.
Lemma swap_r : forall y x e l r r', one_swapped y x r r' -> one_swapped y x (l ++ e :: r) (l ++ e :: r').
Proof. intros y x e l r r' (a & b & -> & ->). exists (l ++ e :: a), b. now rewrite <- !app_assoc. Qed.
Lemma less_l : forall y l l' r, one_less y l l' -> one_less y (l ++ r) (l' ++ r).
Proof. intros y l l' r (a & b & -> & ->). exists a, (b ++ r). now rewrite <- !app_assoc. Qed.
Lemma less_r : forall y e l r r', one_less y r r' -> one_less y (l ++ e :: r) (l ++ e :: r').
Proof. intros y e l r r' (a & b & -> & ->). exists (l ++ e :: a), b. now rewrite <- !app_assoc. Qed.
Lemma more_len : forall x l l', one_more x l l' -> length l' = S (length l).
Proof. intros x l l' (a & b & -> & ->). rewrite !app_length. cbn. lia. Qed.
Lemma swap_len : forall y x l l', one_swapped y x l l' -> length l' = length l.
Proof. intros y x l l' (a & b & -> & ->). now rewrite !app_length. Qed.
Lemma less_len : forall y l l', one_less y l l' -> length l = S (length l').
Proof. intros y l l' (a & b & -> & ->). rewrite !app_length. cbn. lia. Qed.
End L.

Lemma said_cons : forall K (p : K * option comparison) log h, unequal p -> said log h -> said (p :: log) h.
Proof.
  intros K p log [|k|] Hp; cbn [said].
  - intros H. now constructor.
  - intros (l & -> & H). exists (p :: l). split; [reflexivity|now constructor].
  - intros (l & k & -> & H). exists (p :: l), k. split; [reflexivity|now constructor].
Qed.
Lemma said_eq : forall K (k : K), said [(k, Some Eq)] (Match k).
Proof. intros K k. exists []. split; [reflexivity|constructor]. Qed.
Lemma said_thrown : forall K (k : K), said [(k, None)] Thrown.
Proof. intros K k. exists [], k. split; [reflexivity|constructor]. Qed.

(** The user code with a notebook: every comparison is written down with its answer. *)
Definition note {K} (k0 : K) {W} (r : W * option comparison) (log : list (K * option comparison))
  : W * list (K * option comparison) * option comparison :=
  (fst r, log ++ [(k0, snd r)], snd r).
Definition logged {W K V Q} (U : ord_code W K V Q) : ord_code (W * list (K * option comparison)) K V Q :=
  mkOrd _ _ _ _ (fun w k k0 => note k0 (oc_key U (fst w) k k0) (snd w))
                (fun w q k0 => note k0 (oc_query U (fst w) q k0) (snd w))
                (fun w e => let r := oc_clone U (fst w) e in (fst r, snd w, snd r)).

Section RB.
Context {W K V Q : Type}.
Variable dbg : bool.
Variable U : ord_code W K V Q.
Notation tree := (tree K V).
Notation LU := (logged U).

(** ** The notebook changes nothing *)
Definition forget {B X} (r : res (W * B * X)) : res (W * X) := let! (w, x) := r in Ok (fst w, x).

Lemma forget_call : forall X S A (r : W * option X) (rl : W * list (K * option comparison) * option X) (s : S) (f : W -> X -> res (W * uout S A)) g,
  fst (fst rl) = fst r -> snd rl = snd r -> (forall L x, f (fst r) x = forget (g (fst r, L) x)) ->
  wcall r s f = forget (wcall rl s g).
Proof.
  intros X S A [w o] [[w' L] o'] s f g E1 E2 H. cbn in *. subst. destruct o as [x|]; cbn; [apply H|reflexivity].
Qed.
Lemma forget_bind : forall S S' A B (r : res (W * uout S A)) rl (k : S -> S') (f : W -> A -> res (W * uout S' B)) g,
  r = forget rl -> (forall w L x, f w x = forget (g (w, L : list (K * option comparison)) x)) ->
  wbind r k f = forget (wbind rl k g).
Proof.
  intros S S' A B r rl k f g -> H. destruct rl as [[[w L] [a|s]]| |]; cbn; auto. 
Qed.

Lemma forget_get : forall q t w L, w_t_get U w t q = forget (w_t_get LU (w, L) t q).
Proof.
  intros q. induction t as [|e c l IHl r IHr]; intros w L; cbn [w_t_get]; [reflexivity|].
  apply forget_call; try reflexivity. intros L' [| |]; [reflexivity|apply IHl|apply IHr].
Qed.
Lemma forget_ins : forall k v t w L b, w_ins U w t k v b = forget (w_ins LU (w, L) t k v b).
Proof.
  intros k v. induction t as [|e c l IHl r IHr]; intros w L b; cbn [w_ins]; [reflexivity|].
  apply forget_call; try reflexivity. intros L' [| |]; [reflexivity| |];
    (apply forget_bind; [first [apply IHl|apply IHr]|]); intros w1 L1 [t1 n]; unfold forget;
    (match goal with |- bind ?x _ = _ => destruct x; reflexivity end).
Qed.
Lemma forget_del : forall q t w L b, w_del dbg U w t q b = forget (w_del dbg LU (w, L) t q b).
Proof.
  intros q. induction t as [|e c l IHl r IHr]; intros w L b; cbn [w_del]; [reflexivity|].
  apply forget_call; try reflexivity. intros L' [| |].
  - unfold forget. match goal with |- bind ?x _ = _ => destruct x as [[? ?]| |]; reflexivity end.
  - apply forget_bind; [apply IHl|]. intros w1 L1 [t1 n]; unfold forget.
    match goal with |- bind ?x _ = _ => destruct x; reflexivity end.
  - apply forget_bind; [apply IHr|]. intros w1 L1 [t1 n]; unfold forget.
    match goal with |- bind ?x _ = _ => destruct x; reflexivity end.
Qed.
Lemma forget_get_mut : forall q f t w L sh, w_t_get_mut U w sh t q f = forget (w_t_get_mut LU (w, L) sh t q f).
Proof.
  intros q f. induction t as [|e c l IHl r IHr]; intros w L sh; cbn [w_t_get_mut]; [reflexivity|].
  apply forget_call; try reflexivity. intros L' [| |].
  - apply forget_call; [now destruct sh|now destruct sh|]. intros L1 x. destruct sh; reflexivity.
  - apply forget_bind; [apply IHl|]. intros w1 L1 [t1 n]. reflexivity.
  - apply forget_bind; [apply IHr|]. intros w1 L1 [t1 n]. reflexivity.
Qed.

Lemma forget_step : forall w L sh o m, w_rb_step dbg U w sh o m = forget (w_rb_step dbg LU (w, L) sh o m).
Proof.
  intros w L sh o m.
  destruct o; cbn [w_rb_step]; try reflexivity; unfold w_rb_insert_mut, w_rb_remove_mut, w_rb_get_mut, w_rb_find;
    (apply forget_bind; [apply forget_bind; [first [apply forget_ins|apply forget_del|apply forget_get_mut|apply forget_get]|]|]);
    try (intros w1 L1 [t1 n]; unfold forget; try reflexivity; destruct n; cbn [bind]; try reflexivity;
         match goal with |- bind ?x _ = _ => destruct x; reflexivity end);
    intros; reflexivity.
Qed.

(** ** One call *)
Lemma w_get_ok : forall q t w L, exists w' log x, w_t_get LU (w, L) t q = Ok (w', L ++ log, x) /\ length log <= hgt t /\
  match x with
  | Torn _ => said log Thrown
  | Gave None => said log Nothing
  | Gave (Some e) => said log (Match (fst e)) /\ In e (elems t)
  end.
Proof.
  intros q. induction t as [|e c l IHl r IHr]; intros w L; cbn [w_t_get elems hgt].
  - exists w, [], (Gave None). rewrite app_nil_r. split; [reflexivity|]. split; [cbn [length]; lia|constructor].
  - cbn [oc_query logged fst snd]. unfold note. destruct (oc_query U w q (fst e)) as [w1 [[| |]|]]; cbn [fst snd wcall].
    + exists w1, [(fst e, Some Eq)], (Gave (Some e)). split; [reflexivity|]. split; [cbn [length]; lia|].
      split; [apply said_eq|]. apply in_app_iff. right. now left.
    + destruct (IHl w1 (L ++ [(fst e, Some Lt)])) as (w2 & log & x & -> & Hl & H).
      exists w2, ((fst e, Some Lt) :: log), x. rewrite <- app_assoc. split; [reflexivity|]. split; [cbn [length]; lia|].
      destruct x as [[e'|]|]; [destruct H as [H1 H2]; split; [|apply in_app_iff; now left]| |]; apply said_cons; auto; now left.
    + destruct (IHr w1 (L ++ [(fst e, Some Gt)])) as (w2 & log & x & -> & Hl & H).
      exists w2, ((fst e, Some Gt) :: log), x. rewrite <- app_assoc. split; [reflexivity|]. split; [cbn [length]; lia|].
      destruct x as [[e'|]|]; [destruct H as [H1 H2]; split; [|apply in_app_iff; right; now right]| |]; apply said_cons; auto; now right.
    + exists w1, [(fst e, None)], (Torn tt). split; [reflexivity|]. split; [cbn [length]; lia|]. apply said_thrown.
Qed.

Definition ins_post (k : K) (v : V) (t : tree) (log : list (K * option comparison)) (t' : tree) (new : bool) : Prop :=
  if new then said log Nothing /\ one_more (k, v) (elems t) (elems t')
  else exists e, said log (Match (fst e)) /\ one_swapped e (k, v) (elems t) (elems t').

Lemma w_ins_ok : forall k v t h w L, rbt h t ->
  exists w' log x, w_ins LU (w, L) t k v false = Ok (w', L ++ log, x) /\ length log <= hgt t /\
  match x with
  | Torn s => s = t /\ said log Thrown
  | Gave (t', new) => ins_post k v t log t' new /\
      arbt h t' /\ (notred t -> rbt h t') /\ (new = false -> rbt h t' /\ tcolor t' = tcolor t)
  end.
Proof.
  intros k v. induction t as [|e c l IHl r IHr]; intros h w L Hr; cbn [w_ins hgt].
  - exists w, [], (Gave (Tree (k, v) Red Leaf Leaf, true)). apply rbt_leaf_inv in Hr. subst h. rewrite app_nil_r.
    assert (rbt 0 (Tree (k, v) Red Leaf Leaf)) by (repeat constructor).
    split; [reflexivity|]. split; [cbn [length]; lia|]. split; [|repeat split; auto; try discriminate; now left].
    split; [constructor|]. exists [], []. split; reflexivity.
  - cbn [oc_key logged fst snd]. unfold note. destruct (oc_key U w k (fst e)) as [w1 [[| |]|]]; cbn [fst snd wcall].
    + exists w1, [(fst e, Some Eq)], (Gave (Tree (k, v) c l r, false)). split; [reflexivity|]. split; [cbn [length]; lia|].
      split; [|split; [|split]].
      * exists e. split; [apply said_eq|]. exists (elems l), (elems r). split; reflexivity.
      * left. inversion Hr; subst; constructor; auto.
      * intros _. inversion Hr; subst; constructor; auto.
      * intros _. split; [inversion Hr; subst; constructor; auto|reflexivity].
    + destruct (rbt_kids _ _ _ _ _ _ _ Hr) as (h' & Rl & Rr & HR & HB).
      destruct (IHl h' w1 (L ++ [(fst e, Some Lt)]) Rl) as (w2 & log & x & E & Hlen & H). rewrite <- app_assoc in E. rewrite E. clear E IHl IHr.
      assert (Hu : unequal (fst e, Some Lt)) by now left.
      destruct x as [[l' new]|s]; cbn [wbind bind].
      2:{ destruct H as [-> H]. exists w2, ((fst e, Some Lt) :: log), (Torn (Tree e c l r)). split; [reflexivity|].
          split; [cbn [length]; lia|]. split; [reflexivity|]. now apply said_cons. }
      destruct H as (Hp & Ha & Hn & Hf). destruct new; cbn [bind].
      * destruct Hp as [Hs Hm]. apply (more_l _ _ _ (e :: elems r)) in Hm. apply (said_cons _ _ _ _ Hu) in Hs. destruct c.
        -- destruct (HR eq_refl) as (-> & N1 & N2). cbn [balance n_color set_left bind].
           exists w2, ((fst e, Some Lt) :: log), (Gave (Tree e Red l' r, true)). split; [reflexivity|].
           split; [cbn [length]; lia|]. split; [split; assumption|]. split; [right; auto|]. split; [intros []|discriminate].
        -- rewrite (HB eq_refl). destruct (balance_ok h' e l' r) as (n' & Eb & Ee & Rb); [now left|].
           change (set_left (mkNode e Black l r) l') with (mkNode e Black l' r). rewrite Eb. cbn [bind].
           exists w2, ((fst e, Some Lt) :: log), (Gave (some n', true)). split; [reflexivity|]. split; [cbn [length]; lia|].
           split; [split; [assumption|now rewrite Ee]|]. split; [now left|]. split; [auto|discriminate].
      * destruct Hp as (e' & Hs & Hm). apply (swap_l _ _ _ _ (e :: elems r)) in Hm. apply (said_cons _ _ _ _ Hu) in Hs.
        destruct (Hf eq_refl) as (Hr' & Hc).
        assert (R : rbt h (Tree e c l' r)).
        { destruct c.
          - destruct (HR eq_refl) as (-> & N1 & N2). constructor; auto. eapply notred_color; eassumption.
          - rewrite (HB eq_refl). constructor; auto. }
        exists w2, ((fst e, Some Lt) :: log), (Gave (Tree e c l' r, false)). split; [reflexivity|]. split; [cbn [length]; lia|].
        split; [exists e'; auto|]. split; [now left|]. split; auto.
    + destruct (rbt_kids _ _ _ _ _ _ _ Hr) as (h' & Rl & Rr & HR & HB).
      destruct (IHr h' w1 (L ++ [(fst e, Some Gt)]) Rr) as (w2 & log & x & E & Hlen & H). rewrite <- app_assoc in E. rewrite E. clear E IHl IHr.
      assert (Hu : unequal (fst e, Some Gt)) by now right.
      destruct x as [[r' new]|s]; cbn [wbind bind].
      2:{ destruct H as [-> H]. exists w2, ((fst e, Some Gt) :: log), (Torn (Tree e c l r)). split; [reflexivity|].
          split; [cbn [length]; lia|]. split; [reflexivity|]. now apply said_cons. }
      destruct H as (Hp & Ha & Hn & Hf). destruct new; cbn [bind].
      * destruct Hp as [Hs Hm]. apply (more_r _ e (elems l)) in Hm. apply (said_cons _ _ _ _ Hu) in Hs. destruct c.
        -- destruct (HR eq_refl) as (-> & N1 & N2). cbn [balance n_color set_right bind].
           exists w2, ((fst e, Some Gt) :: log), (Gave (Tree e Red l r', true)). split; [reflexivity|].
           split; [cbn [length]; lia|]. split; [split; assumption|]. split; [right; auto|]. split; [intros []|discriminate].
        -- rewrite (HB eq_refl). destruct (balance_ok h' e l r') as (n' & Eb & Ee & Rb); [now right|].
           change (set_right (mkNode e Black l r) r') with (mkNode e Black l r'). rewrite Eb. cbn [bind].
           exists w2, ((fst e, Some Gt) :: log), (Gave (some n', true)). split; [reflexivity|]. split; [cbn [length]; lia|].
           split; [split; [assumption|now rewrite Ee]|]. split; [now left|]. split; [auto|discriminate].
      * destruct Hp as (e' & Hs & Hm). apply (swap_r _ _ e (elems l)) in Hm. apply (said_cons _ _ _ _ Hu) in Hs.
        destruct (Hf eq_refl) as (Hr' & Hc).
        assert (R : rbt h (Tree e c l r')).
        { destruct c.
          - destruct (HR eq_refl) as (-> & N1 & N2). constructor; auto. eapply notred_color; eassumption.
          - rewrite (HB eq_refl). constructor; auto. }
        exists w2, ((fst e, Some Gt) :: log), (Gave (Tree e c l r', false)). split; [reflexivity|]. split; [cbn [length]; lia|].
        split; [exists e'; auto|]. split; [now left|]. split; auto.
    + exists w1, [(fst e, None)], (Torn (Tree e c l r)). split; [reflexivity|]. split; [cbn [length]; lia|].
      split; [reflexivity|apply said_thrown].
Qed.

Definition del_post (t : tree) (log : list (K * option comparison)) (t' : tree) (removed : bool) : Prop :=
  if removed then exists e, said log (Match (fst e)) /\ one_less e (elems t) (elems t')
  else said log Nothing /\ elems t' = elems t.

Lemma del_post_l : forall e c c' l r log l' x removed, snd x = Some Lt -> del_post l log l' removed ->
  del_post (Tree e c l r) (x :: log) (Tree e c' l' r) removed.
Proof.
  intros e c c' l r log l' x [|] Hx; cbn [del_post elems].
  - intros (e' & Hs & Hm). exists e'. split; [apply said_cons; [now left|assumption]|now apply less_l].
  - intros (Hs & ->). split; [apply said_cons; [now left|assumption]|reflexivity].
Qed.
Lemma del_post_r : forall e c c' l r log r' x removed, snd x = Some Gt -> del_post r log r' removed ->
  del_post (Tree e c l r) (x :: log) (Tree e c' l r') removed.
Proof.
  intros e c c' l r log r' x [|] Hx; cbn [del_post elems].
  - intros (e' & Hs & Hm). exists e'. split; [apply said_cons; [now right|assumption]|now apply less_r].
  - intros (Hs & ->). split; [apply said_cons; [now right|assumption]|reflexivity].
Qed.
Lemma del_post_elems : forall t log t1 t2 removed, elems t2 = elems t1 -> del_post t log t1 removed -> del_post t log t2 removed.
Proof. intros t log t1 t2 [|] E; cbn [del_post]; now rewrite E. Qed.
Lemma del_post_leaf : forall log (t' : tree) removed, del_post Leaf log t' removed -> t' = Leaf.
Proof.
  intros log t' [|]; cbn [del_post elems].
  - intros (e & _ & a & b & H & _). destruct a; discriminate.
  - intros [_ H]. now apply elems_nil.
Qed.

Lemma w_del_ok : forall q t h w L, rbt h t ->
  exists w' log x, w_del dbg LU (w, L) t q false = Ok (w', L ++ log, x) /\ length log <= hgt t /\
  match x with
  | Torn s => s = t /\ said log Thrown
  | Gave (t', removed) => del_post t log t' removed /\
      (tcolor t = Some Black -> exists h', h = S h' /\ arbt h' t') /\ (tcolor t <> Some Black -> rbt h t')
  end.
Proof.
  intros q. induction t as [|e c l IHl r IHr]; intros h w L Hr; cbn [w_del hgt].
  - exists w, [], (Gave (Leaf, false)). rewrite app_nil_r. split; [reflexivity|]. split; [cbn [length]; lia|].
    split; [split; [constructor|reflexivity]|]. split; [discriminate|auto].
  - destruct (rbt_kids _ _ _ _ _ _ _ Hr) as (h' & Rl & Rr & HR & HB).
    cbn [oc_query logged fst snd]. unfold note. destruct (oc_query U w q (fst e)) as [w1 [[| |]|]]; cbn [fst snd wcall].
    + cbn [n_left n_right].
      destruct (remove_fuse_ok dbg (set_right (set_left (mkNode e c l r) Leaf) Leaf) l r h' Rl Rr) as ((n & f) & -> & Ee & Ha & Hb).
      cbn [bind]. exists w1, [(fst e, Some Eq)], (Gave (fused_tree (n, f), true)).
      split; [destruct f; reflexivity|]. split; [cbn [length]; lia|]. split.
      { exists e. split; [apply said_eq|]. exists (elems l), (elems r). split; [reflexivity|exact Ee]. }
      split; intros Hc.
      * cbn in Hc. injection Hc as ->. exists h'. auto.
      * destruct c; [|now contradiction Hc]. destruct (HR eq_refl) as (-> & N1 & N2). auto.
    + destruct (IHl h' w1 (L ++ [(fst e, Some Lt)]) Rl) as (w2 & log & x & E & Hlen & H). rewrite <- app_assoc in E. rewrite E. clear E IHl IHr.
      destruct x as [[l' rem]|s]; cbn [wbind bind].
      2:{ destruct H as [-> H]. exists w2, ((fst e, Some Lt) :: log), (Torn (Tree e c l r)). split; [reflexivity|].
          split; [cbn [length]; lia|]. split; [reflexivity|]. apply said_cons; [now left|assumption]. }
      destruct H as (Hp & HB' & HR'). pose proof (del_post_l e c Red l r _ _ (fst e, Some Lt) _ eq_refl Hp) as Hp'.
      change (set_color (set_left (mkNode e c l r) l') Red) with (mkNode e Red l' r).
      unfold left_color. cbn [n_left].
      destruct (tcolor l) as [[|]|] eqn:Cl.
      * cbn [bind]. exists w2, ((fst e, Some Lt) :: log), (Gave (Tree e Red l' r, rem)). split; [reflexivity|]. split; [cbn [length]; lia|].
        split; [exact Hp'|]. specialize (HR' ltac:(discriminate)).
        split; intros Hc.
        -- injection Hc as ->. exists h'. split; [now apply HB|]. right; auto.
        -- destruct c; [|now contradiction Hc]. destruct (HR eq_refl) as (-> & N1 & N2).
           destruct l as [|? [|] ? ?]; try discriminate; contradiction.
      * destruct (HB' eq_refl) as (h2 & -> & Ha).
        destruct (remove_balance_left_ok dbg h2 e Red l' r Ha Rr) as (n' & -> & Ee & An & Rn). cbn [bind].
        exists w2, ((fst e, Some Lt) :: log), (Gave (some n', rem)). split; [reflexivity|]. split; [cbn [length]; lia|].
        split; [eapply del_post_elems; [|exact Hp']; exact Ee|]. split; intros Hc.
        -- injection Hc as ->. exists (S h2). split; [now apply HB|exact An].
        -- destruct c; [|now contradiction Hc]. destruct (HR eq_refl) as (-> & N1 & N2). auto.
      * cbn [bind]. exists w2, ((fst e, Some Lt) :: log), (Gave (Tree e Red l' r, rem)). split; [reflexivity|]. split; [cbn [length]; lia|].
        split; [exact Hp'|]. specialize (HR' ltac:(discriminate)).
        split; intros Hc.
        -- injection Hc as ->. exists h'. split; [now apply HB|]. right; auto.
        -- destruct c; [|now contradiction Hc]. destruct (HR eq_refl) as (-> & N1 & N2).
           destruct l as [|? ? ? ?]; [|discriminate]. apply rbt_leaf_inv in Rl. subst h'.
           rewrite (del_post_leaf _ _ _ Hp). repeat constructor; auto.
    + destruct (IHr h' w1 (L ++ [(fst e, Some Gt)]) Rr) as (w2 & log & x & E & Hlen & H). rewrite <- app_assoc in E. rewrite E. clear E IHl IHr.
      destruct x as [[r' rem]|s]; cbn [wbind bind].
      2:{ destruct H as [-> H]. exists w2, ((fst e, Some Gt) :: log), (Torn (Tree e c l r)). split; [reflexivity|].
          split; [cbn [length]; lia|]. split; [reflexivity|]. apply said_cons; [now right|assumption]. }
      destruct H as (Hp & HB' & HR'). pose proof (del_post_r e c Red l r _ _ (fst e, Some Gt) _ eq_refl Hp) as Hp'.
      change (set_color (set_right (mkNode e c l r) r') Red) with (mkNode e Red l r').
      unfold right_color. cbn [n_right].
      destruct (tcolor r) as [[|]|] eqn:Cl.
      * cbn [bind]. exists w2, ((fst e, Some Gt) :: log), (Gave (Tree e Red l r', rem)). split; [reflexivity|]. split; [cbn [length]; lia|].
        split; [exact Hp'|]. specialize (HR' ltac:(discriminate)).
        split; intros Hc.
        -- injection Hc as ->. exists h'. split; [now apply HB|]. right; auto.
        -- destruct c; [|now contradiction Hc]. destruct (HR eq_refl) as (-> & N1 & N2).
           destruct r as [|? [|] ? ?]; try discriminate; contradiction.
      * destruct (HB' eq_refl) as (h2 & -> & Ha).
        destruct (remove_balance_right_ok dbg h2 e Red l r' Rl Ha) as (n' & -> & Ee & An & Rn). cbn [bind].
        exists w2, ((fst e, Some Gt) :: log), (Gave (some n', rem)). split; [reflexivity|]. split; [cbn [length]; lia|].
        split; [eapply del_post_elems; [|exact Hp']; exact Ee|]. split; intros Hc.
        -- injection Hc as ->. exists (S h2). split; [now apply HB|exact An].
        -- destruct c; [|now contradiction Hc]. destruct (HR eq_refl) as (-> & N1 & N2). auto.
      * cbn [bind]. exists w2, ((fst e, Some Gt) :: log), (Gave (Tree e Red l r', rem)). split; [reflexivity|]. split; [cbn [length]; lia|].
        split; [exact Hp'|]. specialize (HR' ltac:(discriminate)).
        split; intros Hc.
        -- injection Hc as ->. exists h'. split; [now apply HB|]. right; auto.
        -- destruct c; [|now contradiction Hc]. destruct (HR eq_refl) as (-> & N1 & N2).
           destruct r as [|? ? ? ?]; [|discriminate]. apply rbt_leaf_inv in Rr. subst h'.
           rewrite (del_post_leaf _ _ _ Hp). repeat constructor; auto.
    + exists w1, [(fst e, None)], (Torn (Tree e c l r)). split; [reflexivity|]. split; [cbn [length]; lia|].
      split; [reflexivity|apply said_thrown].
Qed.

(** The root is painted black at the end. *)
Lemma w_ins_root : forall k v t (w : W * list (K * option comparison)), w_ins LU w t k v true =
  wbind (w_ins LU w t k v false) (fun t' => t') (fun w '(t', new) => Ok (w, Gave (blacken t', new))).
Proof.
  intros k v [|e c l r] w; [reflexivity|]. cbn [w_ins].
  destruct (oc_key LU w k (fst e)) as [w1 [[| |]|]]; cbn [wcall]; [reflexivity| | |reflexivity].
  - destruct (w_ins LU w1 l k v false) as [[w2 [[l' n]|s]]| |]; cbn [wbind bind]; try reflexivity.
    match goal with |- bind ?x _ = _ => destruct x; reflexivity end.
  - destruct (w_ins LU w1 r k v false) as [[w2 [[l' n]|s]]| |]; cbn [wbind bind]; try reflexivity.
    match goal with |- bind ?x _ = _ => destruct x; reflexivity end.
Qed.
Lemma w_del_root : forall q t (w : W * list (K * option comparison)), w_del dbg LU w t q true =
  wbind (w_del dbg LU w t q false) (fun t' => t') (fun w '(t', rem) => Ok (w, Gave (blacken t', rem))).
Proof.
  intros q [|e c l r] w; [reflexivity|]. cbn [w_del].
  destruct (oc_query LU w q (fst e)) as [w1 [[| |]|]]; cbn [wcall].
  - match goal with |- bind ?x _ = _ => destruct x as [[? []]| |]; reflexivity end.
  - destruct (w_del dbg LU w1 l q false) as [[w2 [[l' n]|s]]| |]; cbn [wbind bind]; try reflexivity.
    match goal with |- bind ?x _ = _ => destruct x; reflexivity end.
  - destruct (w_del dbg LU w1 r q false) as [[w2 [[l' n]|s]]| |]; cbn [wbind bind]; try reflexivity.
    match goal with |- bind ?x _ = _ => destruct x; reflexivity end.
  - reflexivity.
Qed.

(** What cloning may give. *)
Definition clone_of (e e' : K * V) : Prop := exists w w', oc_clone U w e = (w', Some e').

Lemma w_get_mut_ok : forall q f sh t w L, exists w' log x,
  w_t_get_mut LU (w, L) sh t q f = Ok (w', L ++ log, x) /\ length log <= hgt t /\
  match x with
  | Torn s => s = t /\ (said log Thrown \/ sh = true /\ exists e, said log (Match (fst e)) /\ In e (elems t))
  | Gave (t', r) => (forall h, rbt h t -> rbt h t') /\ tcolor t' = tcolor t /\
      match r with
      | None => said log Nothing /\ t' = t
      | Some v => exists e e', said log (Match (fst e)) /\ (if sh then clone_of e e' else e' = e) /\
          one_swapped e (fst e', f (snd e')) (elems t) (elems t') /\ v = snd e'
      end
  end.
Proof.
  intros q f sh. induction t as [|e c l IHl r IHr]; intros w L; cbn [w_t_get_mut hgt].
  - exists w, [], (Gave (Leaf, None)). rewrite app_nil_r. split; [reflexivity|]. split; [cbn [length]; lia|].
    split; [auto|]. split; [reflexivity|]. split; [constructor|reflexivity].
  - cbn [oc_query logged fst snd]. unfold note. destruct (oc_query U w q (fst e)) as [w1 [[| |]|]]; cbn [fst snd wcall].
    + cbn [oc_clone logged fst snd].
      assert (R : forall h e', rbt h (Tree e c l r) -> rbt h (Tree e' c l r)) by (intros h e' H; inversion H; subst; constructor; auto).
      destruct sh.
      * destruct (oc_clone U w1 e) as [w2 [e'|]] eqn:Ec; cbn [fst snd wcall].
        -- exists w2, [(fst e, Some Eq)], (Gave (Tree (fst e', f (snd e')) c l r, Some (snd e'))). split; [reflexivity|]. split; [cbn [length]; lia|].
           split; [intros h; apply R|]. split; [reflexivity|]. exists e, e'. split; [apply said_eq|]. split; [exists w1, w2; exact Ec|].
           split; [|reflexivity]. exists (elems l), (elems r). split; reflexivity.
        -- exists w2, [(fst e, Some Eq)], (Torn (Tree e c l r)). split; [reflexivity|]. split; [cbn [length]; lia|].
           split; [reflexivity|]. right. split; [reflexivity|]. exists e. split; [apply said_eq|]. apply in_app_iff. right. now left.
      * cbn [wcall]. exists w1, [(fst e, Some Eq)], (Gave (Tree (fst e, f (snd e)) c l r, Some (snd e))). split; [reflexivity|]. split; [cbn [length]; lia|].
        split; [intros h; apply R|]. split; [reflexivity|]. exists e, e. split; [apply said_eq|]. split; [reflexivity|].
        split; [|reflexivity]. exists (elems l), (elems r). split; reflexivity.
    + destruct (IHl w1 (L ++ [(fst e, Some Lt)])) as (w2 & log & x & E & Hlen & H). rewrite <- app_assoc in E. rewrite E. clear E IHl IHr.
      assert (Hu : unequal (fst e, Some Lt)) by now left.
      destruct x as [[l' o]|s]; cbn [wbind bind].
      * destruct H as (R & Ct & H). exists w2, ((fst e, Some Lt) :: log), (Gave (Tree e c l' r, o)). split; [reflexivity|]. split; [cbn [length]; lia|].
        split. { intros h H0. inversion H0; subst; constructor; auto. eapply notred_color; eassumption. }
        split; [reflexivity|]. destruct o as [v|].
        -- destruct H as (e1 & e' & H1 & H2 & H3 & H4). exists e1, e'. split; [now apply said_cons|]. split; [assumption|].
           split; [|assumption]. cbn [elems]. now apply swap_l.
        -- destruct H as (H1 & ->). split; [now apply said_cons|reflexivity].
      * destruct H as [-> H]. exists w2, ((fst e, Some Lt) :: log), (Torn (Tree e c l r)). split; [reflexivity|]. split; [cbn [length]; lia|].
        split; [reflexivity|]. destruct H as [H|(Hsh & e' & H1 & H2)]; [left; now apply said_cons|right].
        split; [assumption|]. exists e'. split; [now apply said_cons|]. cbn [elems]. apply in_app_iff. now left.
    + destruct (IHr w1 (L ++ [(fst e, Some Gt)])) as (w2 & log & x & E & Hlen & H). rewrite <- app_assoc in E. rewrite E. clear E IHl IHr.
      assert (Hu : unequal (fst e, Some Gt)) by now right.
      destruct x as [[r' o]|s]; cbn [wbind bind].
      * destruct H as (R & Ct & H). exists w2, ((fst e, Some Gt) :: log), (Gave (Tree e c l r', o)). split; [reflexivity|]. split; [cbn [length]; lia|].
        split. { intros h H0. inversion H0; subst; constructor; auto. eapply notred_color; eassumption. }
        split; [reflexivity|]. destruct o as [v|].
        -- destruct H as (e1 & e' & H1 & H2 & H3 & H4). exists e1, e'. split; [now apply said_cons|]. split; [assumption|].
           split; [|assumption]. cbn [elems]. now apply swap_r.
        -- destruct H as (H1 & ->). split; [now apply said_cons|reflexivity].
      * destruct H as [-> H]. exists w2, ((fst e, Some Gt) :: log), (Torn (Tree e c l r)). split; [reflexivity|]. split; [cbn [length]; lia|].
        split; [reflexivity|]. destruct H as [H|(Hsh & e' & H1 & H2)]; [left; now apply said_cons|right].
        split; [assumption|]. exists e'. split; [now apply said_cons|]. cbn [elems]. apply in_app_iff. right. now right.
    + exists w1, [(fst e, None)], (Torn (Tree e c l r)). split; [reflexivity|]. split; [cbn [length]; lia|].
      split; [reflexivity|]. left. apply said_thrown.
Qed.

(** The shape of a map: a red-black tree whatever the order, and the right size. *)
Definition rb_shape (m : rbmap K V) : Prop :=
  rb_size m = length (elems (rb_root m)) /\ (exists h, rbt h (rb_root m)) /\ notred (rb_root m).

Lemma shape_new : rb_shape rb_new.
Proof. split; [reflexivity|]. split; [exists 0; constructor|exact I]. Qed.

Lemma shape_hgt : forall m, rb_shape m -> (N.of_nat (hgt (rb_root m)) <= 2 * N.log2 (N.of_nat (rb_size m) + 1))%N.
Proof.
  intros m (Hz & (n & Hr) & Hn). pose proof (rbt_size _ _ _ _ Hr) as H1. pose proof (rbt_hgt _ _ _ _ Hr) as H2.
  rewrite <- Hz in H1.
  assert (H3 : hgt (rb_root m) <= 2 * n) by (destruct (rb_root m) as [|? [|] ? ?]; [lia|contradiction|lia]).
  assert (H4 : (N.of_nat n <= N.log2 (N.of_nat (rb_size m) + 1))%N).
  { apply N.log2_le_pow2; [lia|]. assert (E : N.of_nat (2 ^ n) = (2 ^ N.of_nat n)%N).
    { clear. induction n as [|n IH]; [reflexivity|]. rewrite Nat2N.inj_succ, N.pow_succ_r'. cbn [Nat.pow]. lia. }
    lia. }
  lia.
Qed.

Lemma rb_eta : forall m : rbmap K V, rb_put m (rb_root m) = m.
Proof. intros []. reflexivity. Qed.

Lemma w_insert_mut_ok : forall k v m w L, rb_shape m -> exists w' log x,
  w_rb_insert_mut LU (w, L) m k v = Ok (w', L ++ log, x) /\ length log <= hgt (rb_root m) /\
  match x with
  | Torn s => s = m /\ said log Thrown
  | Gave m' => rb_shape m' /\
      (said log Nothing /\ one_more (k, v) (elems (rb_root m)) (elems (rb_root m')) \/
       exists e, said log (Match (fst e)) /\ one_swapped e (k, v) (elems (rb_root m)) (elems (rb_root m')))
  end.
Proof.
  intros k v m w L (Hz & (h & Hr) & Hn). unfold w_rb_insert_mut. rewrite w_ins_root.
  destruct (w_ins_ok k v (rb_root m) h w L Hr) as (w' & log & x & -> & Hlen & H).
  destruct x as [[t' new]|s]; cbn [wbind bind].
  - destruct H as (Hp & Ha & _). exists w', log. eexists. split; [reflexivity|]. split; [assumption|].
    pose proof (blacken_rbt h t' Ha) as Hb. split.
    + split; [|split; [exact Hb|apply blacken_notred]]. cbn [rb_size rb_root]. rewrite blacken_elems.
      destruct new; cbn [ins_post] in Hp.
      * destruct Hp as [_ Hp]. rewrite (more_len _ _ _ Hp). now rewrite Hz.
      * destruct Hp as (e & _ & Hp). rewrite (swap_len _ _ _ _ Hp). exact Hz.
    + cbn [rb_root]. rewrite blacken_elems. destruct new; cbn [ins_post] in Hp; [now left|now right].
  - destruct H as [-> H]. exists w', log, (Torn (rb_put m (rb_root m))). split; [reflexivity|]. split; [assumption|].
    split; [apply rb_eta|assumption].
Qed.

Lemma w_remove_mut_ok : forall q m w L, rb_shape m -> exists w' log x,
  w_rb_remove_mut dbg LU (w, L) m q = Ok (w', L ++ log, x) /\ length log <= hgt (rb_root m) /\
  match x with
  | Torn s => s = m /\ said log Thrown
  | Gave (m', removed) => rb_shape m' /\
      if removed then exists e, said log (Match (fst e)) /\ one_less e (elems (rb_root m)) (elems (rb_root m'))
      else said log Nothing /\ elems (rb_root m') = elems (rb_root m)
  end.
Proof.
  intros q m w L (Hz & (h & Hr) & Hn). unfold w_rb_remove_mut. rewrite w_del_root.
  destruct (w_del_ok q (rb_root m) h w L Hr) as (w' & log & x & -> & Hlen & H).
  destruct x as [[t' rem]|s]; cbn [wbind bind].
  - destruct H as (Hp & HB & HR).
    assert (Hb : exists h', rbt h' (blacken t')).
    { destruct (tcolor (rb_root m)) as [[|]|] eqn:E.
      - destruct (rb_root m) as [|? [|] ? ?]; try discriminate; contradiction.
      - destruct (HB eq_refl) as (h' & -> & Ha). eapply blacken_rbt; exact Ha.
      - eapply blacken_rbt. left. apply HR. discriminate. }
    destruct rem; cbn [del_post] in Hp.
    + destruct Hp as (e & Hs & Hp). pose proof (less_len _ _ _ Hp) as Hl. unfold csub.
      assert (E : 1 <=? rb_size m = true) by (apply Nat.leb_le; lia). rewrite E. cbn [bind].
      exists w', log. eexists. split; [reflexivity|]. split; [assumption|]. split.
      * split; [|split; [exact Hb|apply blacken_notred]]. cbn [rb_size rb_root]. rewrite blacken_elems. lia.
      * cbn [rb_root]. rewrite blacken_elems. eauto.
    + destruct Hp as (Hs & Hp). cbn [bind]. exists w', log. eexists. split; [reflexivity|]. split; [assumption|]. split.
      * split; [|split; [exact Hb|apply blacken_notred]]. cbn [rb_size rb_root]. rewrite blacken_elems, Hp. exact Hz.
      * cbn [rb_root]. rewrite blacken_elems. auto.
  - destruct H as [-> H]. exists w', log, (Torn (rb_put m (rb_root m))). split; [reflexivity|]. split; [assumption|].
    split; [apply rb_eta|assumption].
Qed.

Lemma w_rb_get_mut_ok : forall q f sh m w L, rb_shape m -> exists w' log x,
  w_rb_get_mut LU (w, L) sh m q f = Ok (w', L ++ log, x) /\ length log <= hgt (rb_root m) /\
  match x with
  | Torn s => s = m /\ (said log Thrown \/ sh = true /\ exists e, said log (Match (fst e)) /\ In e (elems (rb_root m)))
  | Gave (m', r) => rb_shape m' /\
      match r with
      | None => said log Nothing /\ m' = m
      | Some v => exists e e', said log (Match (fst e)) /\ (if sh then clone_of e e' else e' = e) /\
          one_swapped e (fst e', f (snd e')) (elems (rb_root m)) (elems (rb_root m')) /\ v = snd e'
      end
  end.
Proof.
  intros q f sh m w L (Hz & (h & Hr) & Hn). unfold w_rb_get_mut.
  destruct (w_get_mut_ok q f sh (rb_root m) w L) as (w' & log & x & -> & Hlen & H).
  destruct x as [[t' r]|s]; cbn [wbind bind].
  - destruct H as (R & Ct & H). exists w', log. eexists. split; [reflexivity|]. split; [assumption|].
    assert (Hl : length (elems t') = length (elems (rb_root m))).
    { destruct r as [v|]; [destruct H as (e & e' & _ & _ & Hm & _); exact (swap_len _ _ _ _ Hm)|destruct H as [_ ->]; reflexivity]. }
    split; [split; [|split; [exists h; now apply R|]]|].
    + cbn [rb_size rb_root]. now rewrite Hl.
    + cbn [rb_root]. eapply notred_color; eassumption.
    + cbn [rb_root]. destruct r as [v|]; [exact H|]. destruct H as [H ->]. split; [exact H|]. now destruct m.
  - destruct H as [-> H]. exists w', log, (Torn (rb_put m (rb_root m))). split; [reflexivity|]. split; [assumption|].
    split; [apply rb_eta|assumption].
Qed.

Lemma w_find_ok : forall q m w L, exists w' log x,
  w_rb_find LU (w, L) m q = Ok (w', L ++ log, x) /\ length log <= hgt (rb_root m) /\
  match x with
  | Torn s => s = m /\ said log Thrown
  | Gave None => said log Nothing
  | Gave (Some e) => said log (Match (fst e)) /\ In e (elems (rb_root m))
  end.
Proof.
  intros q m w L. unfold w_rb_find. destruct (w_get_ok q (rb_root m) w L) as (w' & log & x & -> & Hlen & H).
  destruct x as [o|s]; cbn [wbind bind]; eexists w', log, _; (split; [reflexivity|]); (split; [assumption|]); [exact H|auto].
Qed.

(** Entries, in order. *)
Definition rbe (m : rbmap K V) : list (K * V) := elems (rb_root m).

Lemma surj : forall e : K * V, e = (fst e, snd e).
Proof. intros []. reflexivity. Qed.

Lemma rb_is_empty_nil : forall m, rb_shape m -> rb_is_empty m = is_nil (rbe m).
Proof.
  intros m (Hz & _). unfold rb_is_empty, rbe. rewrite Hz. now destruct (elems (rb_root m)).
Qed.

Lemma w_step_ok : forall sh o m w L, rb_shape m -> exists w' log h x,
  w_rb_step dbg LU (w, L) sh o m = Ok (w', L ++ log, x) /\ said log h /\ length log <= hgt (rb_root m) /\
  match x with
  | Torn m' => m' = m /\ loose clone_of sh o h (rbe m) None (rbe m)
  | Gave (m', a) => rb_shape m' /\ loose clone_of sh o h (rbe m) (Some a) (rbe m')
  end.
Proof.
  intros sh o m w L Hm.
  destruct o as [k v|k v|q|q|q f|q|q|q| | |]; cbn [w_rb_step].
  - destruct (w_insert_mut_ok k v m w L Hm) as (w' & log & x & -> & Hl & H). destruct x as [m'|s]; cbn [wbind bind].
    + destruct H as (Hs & [(H1 & H2)|(e & H1 & H2)]).
      * exists w', log, Nothing. eexists. split; [reflexivity|]. split; [assumption|]. split; [assumption|]. split; [assumption|].
        eapply lo_add; [left; reflexivity|exact H2].
      * exists w', log, (Match (fst e)). eexists. split; [reflexivity|]. split; [assumption|]. split; [assumption|]. split; [assumption|].
        eapply lo_replace; [left; reflexivity|]. rewrite <- surj. exact H2.
    + destruct H as [-> H]. exists w', log, Thrown. eexists. split; [reflexivity|]. split; [assumption|]. split; [assumption|].
      split; [reflexivity|]. now constructor.
  - destruct (w_insert_mut_ok k v m w L Hm) as (w' & log & x & -> & Hl & H). destruct x as [m'|s]; cbn [wbind bind].
    + destruct H as (Hs & [(H1 & H2)|(e & H1 & H2)]).
      * exists w', log, Nothing. eexists. split; [reflexivity|]. split; [assumption|]. split; [assumption|]. split; [assumption|].
        eapply lo_add; [right; reflexivity|exact H2].
      * exists w', log, (Match (fst e)). eexists. split; [reflexivity|]. split; [assumption|]. split; [assumption|]. split; [assumption|].
        eapply lo_replace; [right; reflexivity|]. rewrite <- surj. exact H2.
    + destruct H as [-> H]. exists w', log, Thrown. eexists. split; [reflexivity|]. split; [assumption|]. split; [assumption|].
      split; [reflexivity|]. now constructor.
  - destruct (w_remove_mut_ok q m w L Hm) as (w' & log & x & -> & Hl & H). destruct x as [[m' rem]|s]; cbn [wbind bind].
    + destruct H as (Hs & H). destruct rem.
      * destruct H as (e & H1 & H2). exists w', log, (Match (fst e)). eexists. split; [reflexivity|]. split; [assumption|].
        split; [assumption|]. split; [assumption|]. eapply lo_removed. rewrite <- surj. exact H2.
      * destruct H as [H1 H2]. exists w', log, Nothing. eexists. split; [reflexivity|]. split; [assumption|].
        split; [assumption|]. split; [assumption|]. constructor.
    + destruct H as [-> H]. exists w', log, Thrown. eexists. split; [reflexivity|]. split; [assumption|]. split; [assumption|].
      split; [reflexivity|]. now constructor.
  - destruct (w_remove_mut_ok q m w L Hm) as (w' & log & x & -> & Hl & H). destruct x as [[m' rem]|s]; cbn [wbind bind].
    + destruct H as (Hs & H). destruct rem.
      * destruct H as (e & H1 & H2). exists w', log, (Match (fst e)). eexists. split; [reflexivity|]. split; [assumption|].
        split; [assumption|]. split; [assumption|]. eapply lo_removed_mut. rewrite <- surj. exact H2.
      * destruct H as [H1 H2]. exists w', log, Nothing. eexists. split; [reflexivity|]. split; [assumption|].
        split; [assumption|]. split; [assumption|]. unfold rbe. rewrite H2. constructor.
    + destruct H as [-> H]. exists w', log, Thrown. eexists. split; [reflexivity|]. split; [assumption|]. split; [assumption|].
      split; [reflexivity|]. now constructor.
  - destruct (w_rb_get_mut_ok q f sh m w L Hm) as (w' & log & x & -> & Hl & H). destruct x as [[m' r]|s]; cbn [wbind bind].
    + destruct H as (Hs & H). destruct r as [v|].
      * destruct H as (e & e' & H1 & H2 & H3 & ->). exists w', log, (Match (fst e)). eexists. split; [reflexivity|]. split; [assumption|].
        split; [assumption|]. split; [assumption|]. apply (lo_written _ _ _ _ (fst e) (snd e)); rewrite <- surj; assumption.
      * destruct H as [H1 ->]. exists w', log, Nothing. eexists. split; [reflexivity|]. split; [assumption|].
        split; [assumption|]. split; [assumption|]. constructor.
    + destruct H as [-> [H|(Hsh & e & H1 & H2)]].
      * exists w', log, Thrown. eexists. split; [reflexivity|]. split; [assumption|]. split; [assumption|].
        split; [reflexivity|]. now constructor.
      * exists w', log, (Match (fst e)). eexists. split; [reflexivity|]. split; [assumption|]. split; [assumption|].
        split; [reflexivity|]. apply (lo_no_clone _ _ _ _ _ (snd e)); [assumption|]. now rewrite <- surj.
  - destruct (w_find_ok q m w L) as (w' & log & x & -> & Hl & H). destruct x as [[e|]|s]; cbn [wbind bind].
    + destruct H as [H1 H2]. exists w', log, (Match (fst e)). eexists. split; [reflexivity|]. split; [assumption|]. split; [assumption|].
      split; [assumption|]. constructor. rewrite <- surj. exact H2.
    + exists w', log, Nothing. eexists. split; [reflexivity|]. split; [assumption|]. split; [assumption|]. split; [assumption|]. constructor.
    + destruct H as [-> H]. exists w', log, Thrown. eexists. split; [reflexivity|]. split; [assumption|]. split; [assumption|].
      split; [reflexivity|]. now constructor.
  - destruct (w_find_ok q m w L) as (w' & log & x & -> & Hl & H). destruct x as [[e|]|s]; cbn [wbind bind].
    + destruct H as [H1 H2]. exists w', log, (Match (fst e)). eexists. split; [reflexivity|]. split; [assumption|]. split; [assumption|].
      split; [assumption|]. rewrite (surj e) at 2. constructor. rewrite <- surj. exact H2.
    + exists w', log, Nothing. eexists. split; [reflexivity|]. split; [assumption|]. split; [assumption|]. split; [assumption|]. constructor.
    + destruct H as [-> H]. exists w', log, Thrown. eexists. split; [reflexivity|]. split; [assumption|]. split; [assumption|].
      split; [reflexivity|]. now constructor.
  - destruct (w_find_ok q m w L) as (w' & log & x & -> & Hl & H). destruct x as [[e|]|s]; cbn [wbind bind].
    + destruct H as [H1 H2]. exists w', log, (Match (fst e)). eexists. split; [reflexivity|]. split; [assumption|]. split; [assumption|].
      split; [assumption|]. apply (lo_contains _ _ _ _ (snd e)). rewrite <- surj. exact H2.
    + exists w', log, Nothing. eexists. split; [reflexivity|]. split; [assumption|]. split; [assumption|]. split; [assumption|]. constructor.
    + destruct H as [-> H]. exists w', log, Thrown. eexists. split; [reflexivity|]. split; [assumption|]. split; [assumption|].
      split; [reflexivity|]. now constructor.
  - exists w, [], Nothing. eexists. rewrite app_nil_r. split; [reflexivity|]. split; [constructor|]. split; [cbn [length]; lia|].
    split; [assumption|]. destruct Hm as (Hz & _). rewrite Hz. apply lo_size.
  - exists w, [], Nothing. eexists. rewrite app_nil_r. split; [reflexivity|]. split; [constructor|]. split; [cbn [length]; lia|].
    split; [assumption|]. rewrite (rb_is_empty_nil m Hm). apply lo_is_empty.
  - exists w, [], Nothing. eexists. rewrite app_nil_r. split; [reflexivity|]. split; [constructor|]. split; [cbn [length]; lia|].
    split; [assumption|]. constructor.
Qed.

Lemma w_step_plain : forall sh o m w, rb_shape m -> exists w' h x,
  w_rb_step dbg U w sh o m = Ok (w', x) /\
  match x with
  | Torn m' => m' = m /\ loose clone_of sh o h (rbe m) None (rbe m)
  | Gave (m', a) => rb_shape m' /\ loose clone_of sh o h (rbe m) (Some a) (rbe m')
  end.
Proof.
  intros sh o m w Hm. destruct (w_step_ok sh o m w [] Hm) as (w' & log & h & x & E & _ & _ & H).
  rewrite (forget_step w []), E. exists w', h, x. split; [reflexivity|exact H].
Qed.

Lemma w_hist_ok : forall ops m w, rb_shape m -> exists w' m' l,
  w_exec (w_rb_step dbg U) ops w m = Ok (w', m', l) /\ rb_shape m' /\ loose_hist clone_of eq ops (rbe m) l (rbe m').
Proof.
  induction ops as [|[sh o] ops IH]; intros m w Hm; cbn [w_exec].
  - exists w, m, []. split; [reflexivity|]. split; [assumption|]. now constructor.
  - destruct (w_step_plain sh o m w Hm) as (w1 & h & x & -> & H). cbn [bind].
    destruct x as [[m1 a]|m1].
    + destruct H as [H1 H2]. destruct (IH m1 w1 H1) as (w2 & m2 & l & -> & H3 & H4). cbn [bind].
      exists w2, m2, (Some a :: l). split; [reflexivity|]. split; [assumption|]. econstructor; eauto.
    + destruct H as [-> H2]. destruct (IH m w1 Hm) as (w2 & m2 & l & -> & H3 & H4). cbn [bind].
      exists w2, m2, (None :: l). split; [reflexivity|]. split; [assumption|]. econstructor; eauto.
Qed.
End RB.
