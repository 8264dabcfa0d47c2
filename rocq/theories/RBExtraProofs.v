(** RedBlackTreeMap: full iteration, height, equality, ordering, hashing; RedBlackTreeSet. *)
From Coq Require Import List NArith Arith Bool Lia Permutation Sorted.
From Verif Require Import Base Spec SpecMap SpecOrd SpecTrait Sim IterStd HashProofs HashHist HashExtraProofs
  RBModel RBProofs RBHist RBIter RBExtra.
Import ListNotations.

(** ** Height *)
Lemma rbt_size : forall K V n (t : tree K V), rbt n t -> 2 ^ n <= S (length (elems t)).
Proof.
  intros K V n t H. induction H; cbn [elems]; rewrite ?app_length; cbn [length Nat.pow]; lia.
Qed.
Lemma rbt_hgt : forall K V n (t : tree K V), rbt n t -> hgt t <= 2 * n + (match t with Tree _ Red _ _ => 1 | _ => 0 end).
Proof.
  intros K V n t H. induction H; cbn [hgt].
  - lia.
  - destruct l as [|? [|] ? ?], r as [|? [|] ? ?]; try contradiction; lia.
  - destruct l as [|? [|] ? ?], r as [|? [|] ? ?]; lia.
Qed.

Lemma conservative_ok : forall ubits dbg n, (n + 1 < 2 ^ ubits)%N -> (2 * N.log2 (n + 1) < 2 ^ ubits)%N ->
  conservative_height ubits dbg n = Ok (if (0 <? n)%N then (2 * N.log2 (n + 1))%N else 0%N).
Proof.
  intros ubits dbg n H1 H2. unfold conservative_height. destruct (N.ltb_spec 0 n) as [Hn|Hn]; [|reflexivity].
  unfold uadd. destruct (N.ltb_spec (n + 1) (2 ^ ubits)); [|lia]. cbn [bind]. unfold lg_floor, debug_assert.
  destruct (N.ltb_spec 0 (n + 1)); [|lia]. rewrite andb_false_r. cbn [bind].
  unfold leading_zeros. rewrite N.size_log2 by lia.
  assert (Hl : (N.succ (N.log2 (n + 1)) <= ubits)%N).
  { apply N.le_succ_l. apply N.log2_lt_pow2; [lia|assumption]. }
  unfold usub at 1. destruct (N.leb_spec (ubits - N.succ (N.log2 (n + 1))) ubits); [|lia]. cbn [bind].
  unfold usub. destruct (N.leb_spec 1 (ubits - (ubits - N.succ (N.log2 (n + 1))))) as [H5|H5]; [|lia]. cbn [bind].
  unfold umul. replace (ubits - (ubits - N.succ (N.log2 (n + 1))) - 1)%N with (N.log2 (n + 1)) by lia.
  destruct (N.ltb_spec (2 * N.log2 (n + 1)) (2 ^ ubits)); [reflexivity|lia].
Qed.

Section It.
Context {K V : Type}.
Variable kcmp : K -> K -> comparison.
Hypothesis OL : ord_laws kcmp.
Notation entry := (prod K V).
Set Default Proof Using "OL".

Lemma KBi : forall a b, kcmp a b = kcmp ((fun k : K => k) a) ((fun k : K => k) b).
Proof using. reflexivity. Qed.

Definition it_ok (m : rbmap K V) (i : rbiter K V) (L : list entry) : Prop :=
  ri_ok kcmp (fun k => k) kcmp Unbounded Unbounded m (it_range i) L /\ it_size i = length L.

Lemma inr_all : forall (l : list entry), filter (inr (fun k => k) kcmp Unbounded Unbounded) l = l.
Proof using. intros l. apply filter_all. reflexivity. Qed.

Lemma it_new_ok : forall m, rb_size m = length (elems (rb_root m)) -> it_ok m (it_new m) (elems (rb_root m)).
Proof using.
  intros m E. split; [|exact E]. cbn [it_new it_range].
  pose proof (ri_new_ok kcmp (fun k => k) kcmp Unbounded Unbounded m) as H. rewrite inr_all in H. exact H.
Qed.

Lemma it_sim2 : forall m : rbmap K V, sorted kcmp (elems (rb_root m)) ->
  iter_sim2 (it_next kcmp) (it_next_back kcmp) it_hint (it_ok m).
Proof.
  intros m Hs i L (Hr & Hz). split; [unfold it_hint; now rewrite Hz|]. unfold it_next, it_next_back. rewrite Hz.
  destruct L as [|a L].
  - cbn [length Nat.ltb Nat.leb]. split; exists i; (split; [reflexivity|split; [exact Hr|exact Hz]]).
  - cbn [length]. assert (E : Nat.ltb 0 (S (length L)) = true) by reflexivity. rewrite E, csub_S. cbn [bind]. split.
    + destruct (ri_next_ok kcmp (fun k => k) kcmp OL KBi Unbounded Unbounded m (it_range i) _ Hs Hr) as (r & -> & Hr').
      cbn [bind]. eexists. split; [reflexivity|]. split; [exact Hr'|reflexivity].
    + destruct (ri_next_back_ok kcmp (fun k => k) kcmp OL KBi Unbounded Unbounded m (it_range i) _ Hs Hr) as (r & -> & Hr').
      cbn [bind]. eexists. split; [reflexivity|]. split; [exact Hr'|]. cbn [it_size].
      destruct L as [|b L] using rev_ind; [reflexivity|]. rewrite app_comm_cons, removelast_snoc. cbn [length].
      rewrite app_length. cbn. lia.
Qed.

Lemma it_sim0 : forall m : rbmap K V, sorted kcmp (elems (rb_root m)) -> iter_sim0 (it_next kcmp) (it_ok m).
Proof. intros m Hs i L H. now destruct (it_sim2 m Hs i L H) as (_ & H1 & _). Qed.

Lemma it_sim0_back : forall m : rbmap K V, sorted kcmp (elems (rb_root m)) ->
  forall i L, it_ok m i L -> exists i', it_next_back kcmp i = Ok (last_error L, i') /\ it_ok m i' (removelast L).
Proof. intros m Hs i L H. now destruct (it_sim2 m Hs i L H) as (_ & _ & H1). Qed.

Lemma rb_entries_ok : forall m : rbmap K V, sorted kcmp (elems (rb_root m)) -> rb_size m = length (elems (rb_root m)) ->
  rb_entries kcmp m = Ok (elems (rb_root m)).
Proof.
  intros m Hs Hz. unfold rb_entries. eapply sim_collect; [apply it_sim0; exact Hs|now apply it_new_ok|]. lia.
Qed.

(** ** Equality *)
Notation eqk := (eq_of kcmp).
Notation rep := (rb_rep (V := V) kcmp).

Lemma KLk : key_laws eqk (fun k : K => k) eqk.
Proof. exact (kl_of kcmp (fun k => k) kcmp OL KBi). Qed.

Lemma rep_size : forall m fm, rep m fm -> rb_size m = length (elems (rb_root m)).
Proof using. intros m fm (_ & Hp & Hz & _). rewrite Hz. symmetry. now apply Permutation_length. Qed.
Lemma rep_sorted : forall m fm, rep m fm -> sorted kcmp (elems (rb_root m)).
Proof using. intros m fm H. apply H. Qed.
Lemma rep_self : forall m fm, rep m fm -> rep m (elems (rb_root m)).
Proof using. intros m fm H. pose proof (rep_size m fm H). destruct H as (H1 & H2 & H3 & H4 & H5). repeat split; auto. Qed.

Lemma rb_eq_ok : forall (veq : V -> V -> bool) same m1 m2 f1 f2, rep m1 f1 -> rep m2 f2 ->
  (same = true -> rb_root m1 = rb_root m2 /\ forall v, veq v v = true) ->
  exists r, rb_eq kcmp veq same m1 m2 = Ok r /\ (r = true <-> fm_equal eqk veq f1 f2).
Proof.
  intros veq same m1 m2 f1 f2 H1 H2 Hsame. unfold rb_eq.
  pose proof (rep_unique kcmp (fun k => k) kcmp OL KBi m1 f1 H1) as U1.
  pose proof (rep_unique kcmp (fun k => k) kcmp OL KBi m2 f2 H2) as U2.
  destruct same.
  { destruct (Hsame eq_refl) as [E Hv]. exists true. split; [reflexivity|]. split; [|reflexivity]. intros _.
    pose proof H1 as (_ & P1 & _). pose proof H2 as (_ & P2 & _). rewrite E in P1.
    apply (fm_equal_perm_refl eqk KLk); auto. now rewrite <- P1. }
  pose proof H1 as (_ & P1 & S1 & _). pose proof H2 as (_ & P2 & S2 & _). rewrite S1, S2.
  pose proof (fm_equal_dec eqk KLk veq f1 f2 U1 U2) as Hdec.
  destruct (Nat.eqb_spec (length f1) (length f2)) as [Hl|Hl]; cbn [negb].
  - rewrite (iter_all_ok (it_next kcmp) (it_ok m1) (it_sim0 m1 (rep_sorted _ _ H1)) _ (entry_eq eqk veq f2) (elems (rb_root m1))).
    + eexists. split; [reflexivity|]. rewrite (forallb_perm _ _ _ _ P1), <- Hdec. intuition.
    + apply it_new_ok. exact (rep_size _ _ H1).
    + intros a _. unfold rb_get. rewrite (rb_get_ok kcmp (fun k => k) kcmp OL KBi m2 f2 _ H2). reflexivity.
    + rewrite <- (rep_size _ _ H1), S1. lia.
  - exists false. split; [reflexivity|]. rewrite <- Hdec. split; [discriminate|intuition].
Qed.

(** ** Extensional equality of sorted maps is element-wise equality of the sorted entries. *)
Definition ent_eq (veq : V -> V -> bool) (a b : entry) : bool := eqk (fst a) (fst b) && veq (snd a) (snd b).

Lemma eqk_refl : forall a, eqk a a = true.
Proof. intros a. unfold eq_of. now rewrite (cmp_refl _ OL). Qed.
Lemma eqk_eq : forall a b, kcmp a b = Eq -> eqk a b = true.
Proof using. intros a b H. unfold eq_of. now rewrite H. Qed.
Lemma eqk_ne : forall a b, kcmp a b <> Eq -> eqk a b = false.
Proof using. intros a b H. unfold eq_of. destruct (kcmp a b); congruence. Qed.
Lemma eqk_inv : forall a b, eqk a b = true -> kcmp a b = Eq.
Proof using. intros a b H. unfold eq_of in H. now destruct (kcmp a b). Qed.
Lemma eqk_cong : forall a b k, kcmp a b = Eq -> eqk a k = eqk b k.
Proof. intros a b k H. unfold eq_of. now rewrite (ol_eq _ OL _ _ k H). Qed.
Lemma lt_ne : forall a b, kcmp a b = Lt -> eqk b a = false.
Proof. intros a b H. unfold eq_of. rewrite (ol_sym _ OL), H. reflexivity. Qed.

Lemma sorted_none : forall (l : list entry) k k', (forall x, In x l -> kcmp k' (fst x) = Lt) ->
  (kcmp k k' = Lt \/ kcmp k k' = Eq) -> find (fun x => eqk (fst x) k) l = None.
Proof.
  intros l k k' F H. destruct (find _ l) as [c|] eqn:Ef; [|reflexivity]. exfalso. apply find_some in Ef as [Hc Ec].
  specialize (F c Hc). apply eqk_inv in Ec. assert (E : kcmp k (fst c) = Lt).
  { destruct H as [H|H]; [exact (ol_trans _ OL _ _ _ H F)|now rewrite (ol_eq _ OL _ _ (fst c) H)]. }
  rewrite (ol_sym _ OL), Ec in E. discriminate.
Qed.

Lemma sorted_equal : forall veq (l1 l2 : list entry), sorted kcmp l1 -> sorted kcmp l2 ->
  (fm_equal eqk veq l1 l2 <-> seq_equal (ent_eq veq) l1 l2).
Proof.
  intros veq l1 l2 Hs1 Hs2. split.
  - revert l2 Hs2. induction l1 as [|a l1 IH]; intros [|b l2] Hs2 H; cbn [seq_equal].
    + exact I.
    + specialize (H (fst b)). cbn in H. now rewrite eqk_refl in H.
    + specialize (H (fst a)). cbn in H. now rewrite eqk_refl in H.
    + inversion Hs1 as [|? ? Hs1' F1]; subst. inversion Hs2 as [|? ? Hs2' F2]; subst. rewrite Forall_forall in F1, F2.
      assert (Hab : kcmp (fst a) (fst b) = Eq).
      { destruct (kcmp (fst a) (fst b)) eqn:E; [reflexivity| |]; exfalso.
        - specialize (H (fst a)). cbn [find] in H. rewrite eqk_refl, (lt_ne _ _ E) in H.
          rewrite (sorted_none l2 (fst a) (fst b) F2 (or_introl E)) in H. exact H.
        - apply (cmp_gt _ OL) in E. specialize (H (fst b)). cbn [find] in H. rewrite eqk_refl, (lt_ne _ _ E) in H.
          rewrite (sorted_none l1 (fst b) (fst a) F1 (or_introl E)) in H. exact H. }
      split.
      * unfold ent_eq. rewrite (eqk_eq _ _ Hab). cbn [andb]. specialize (H (fst a)). cbn [find] in H.
        rewrite eqk_refl, (eqk_eq _ _ (proj1 (cmp_eq_sym _ OL _ _) Hab)) in H. exact H.
      * apply IH; auto. intros k. specialize (H k). cbn [find] in H.
        rewrite <- (eqk_cong _ _ k Hab) in H. destruct (eqk (fst a) k) eqn:Ek; [|exact H]. apply eqk_inv in Ek.
        rewrite (sorted_none l1 k (fst a) F1 (or_intror (proj1 (cmp_eq_sym _ OL _ _) Ek))).
        rewrite (sorted_none l2 k (fst b) F2); [exact I|]. right. apply (cmp_eq_sym _ OL).
        now rewrite <- (ol_eq _ OL _ _ k Hab).
  - intros H k. clear Hs1 Hs2. revert l2 H. induction l1 as [|a l1 IH]; intros [|b l2] H; cbn [seq_equal] in H; try contradiction; [exact I|].
    destruct H as [Hab H]. apply andb_true_iff in Hab as [Hk Hv]. cbn [find]. apply eqk_inv in Hk.
    rewrite (eqk_cong _ _ k Hk). destruct (eqk (fst b) k); [exact Hv|now apply IH].
Qed.

Lemma fm_equal_perm : forall veq (a b c d : fmap K V), Permutation a c -> Permutation b d ->
  unique_keys eqk a -> unique_keys eqk b -> (fm_equal eqk veq a b <-> fm_equal eqk veq c d).
Proof.
  intros veq a b c d P1 P2 U1 U2. unfold fm_equal. split; intros H k; specialize (H k).
  - rewrite <- (lookup_perm eqk KLk a c k P1 U1), <- (lookup_perm eqk KLk b d k P2 U2). exact H.
  - rewrite (lookup_perm eqk KLk a c k P1 U1), (lookup_perm eqk KLk b d k P2 U2). exact H.
Qed.

Lemma rep_equal : forall veq m1 m2 f1 f2, rep m1 f1 -> rep m2 f2 ->
  (fm_equal eqk veq f1 f2 <-> seq_equal (ent_eq veq) (elems (rb_root m1)) (elems (rb_root m2))).
Proof.
  intros veq m1 m2 f1 f2 H1 H2. rewrite <- (sorted_equal veq _ _ (rep_sorted _ _ H1) (rep_sorted _ _ H2)).
  symmetry. apply fm_equal_perm; [apply H1|apply H2| |];
    (eapply (rep_unique kcmp (fun k => k) kcmp OL KBi); eapply rep_self; eassumption).
Qed.

(** ** Ordering and hashing *)
Lemma rb_partial_cmp_ok : forall vcmp m1 m2 f1 f2, rep m1 f1 -> rep m2 f2 ->
  rb_partial_cmp kcmp vcmp m1 m2 = Ok (plex (fun a b => match kcmp (fst a) (fst b) with Eq => vcmp (snd a) (snd b) | c => Some c end)
    (elems (rb_root m1)) (elems (rb_root m2))).
Proof.
  intros vcmp m1 m2 f1 f2 H1 H2. unfold rb_partial_cmp.
  eapply (iter_partial_cmp_ok _ _ (it_ok m1) (it_ok m2)).
  - apply it_sim0. eapply rep_sorted; eassumption.
  - apply it_sim0. eapply rep_sorted; eassumption.
  - apply it_new_ok. eapply rep_size; eassumption.
  - apply it_new_ok. eapply rep_size; eassumption.
  - rewrite <- (rep_size _ _ H1). lia.
Qed.
Lemma rb_cmp_ok : forall vcmp m1 m2 f1 f2, rep m1 f1 -> rep m2 f2 ->
  rb_cmp kcmp vcmp m1 m2 = Ok (lex (pair_cmp kcmp vcmp) (elems (rb_root m1)) (elems (rb_root m2))).
Proof.
  intros vcmp m1 m2 f1 f2 H1 H2. unfold rb_cmp.
  eapply (iter_cmp_lex _ _ _ _ _ (it_ok m1) (it_ok m2)).
  - apply it_sim0. eapply rep_sorted; eassumption.
  - apply it_sim0. eapply rep_sorted; eassumption.
  - apply it_new_ok. eapply rep_size; eassumption.
  - apply it_new_ok. eapply rep_size; eassumption.
  - rewrite <- (rep_size _ _ H1). lia.
Qed.
Lemma rb_hash_ok : forall hk hv m f, rep m f ->
  rb_hash kcmp hk hv m = Ok (seq_feed (fun e => hk (fst e) ++ hv (snd e)) (elems (rb_root m))).
Proof.
  intros hk hv m f H. unfold rb_hash. rewrite (rb_entries_ok m (rep_sorted _ _ H) (rep_size _ _ H)). cbn [bind].
  unfold seq_feed. now rewrite (rep_size _ _ H).
Qed.
End It.

(** ** Sets *)
Section Set_.
Context {T Q : Type}.
Variable dbg : bool.
Variable tcmp : T -> T -> comparison.
Variable borrow : T -> Q.
Variable qcmp : Q -> Q -> comparison.
Hypothesis OL : ord_laws qcmp.
Hypothesis KB : forall a b, tcmp a b = qcmp (borrow a) (borrow b).
Set Default Proof Using "OL KB".
Notation eqt := (eq_of tcmp).
Notation eqq := (eq_of qcmp).

Definition rs_rep (m : rset T) (s : list T) : Prop := rb_rep tcmp m (map ut s).

Lemma rs_insert_ok : forall m s t, rs_rep m s ->
  exists m', rs_insert_mut tcmp m t = Ok m' /\ rs_rep m' (t :: filter (fun x => negb (eqt x t)) s).
Proof.
  intros m s t H. destruct (rb_insert_ok tcmp borrow qcmp OL KB m _ t tt H) as (m' & E & H').
  exists m'. split; [exact E|]. unfold rs_rep. cbn [map]. rewrite <- (filter_ut (fun x => negb (eqt x t))). exact H'.
Qed.

Lemma rs_step_ok : forall (o : set_op T Q) m s, rs_rep m s ->
  exists m', rs_step dbg tcmp borrow qcmp o m = Ok (m', snd (set_spec eqt borrow eqq o s)) /\
             rs_rep m' (fst (set_spec eqt borrow eqq o s)).
Proof.
  intros o m s H.
  assert (Hf : forall q, fm_find borrow eqq q (map ut s) = option_map ut (set_find borrow eqq q s)).
  { intros q. unfold fm_find, set_find. exact (find_ut (fun t => eqq (borrow t) q) s). }
  assert (Hr : forall q, fm_remove borrow eqq q (map ut s) = map ut (filter (fun x => negb (eqq (borrow x) q)) s)).
  { intros q. unfold fm_remove. exact (filter_ut (fun x => negb (eqq (borrow x) q)) s). }
  destruct o as [t|t|q|q|q|q| | |]; cbn [rs_step set_spec fst snd].
  - destruct (rs_insert_ok m s t H) as (m' & E & H'). unfold rs_insert, rb_insert. unfold rs_insert_mut in E.
    rewrite E. cbn [bind]. eauto.
  - destruct (rs_insert_ok m s t H) as (m' & E & H'). rewrite E. cbn [bind]. eauto.
  - destruct (rb_remove_ok dbg tcmp borrow qcmp OL KB m _ q H) as (m' & E & H').
    unfold rs_remove, rb_remove. rewrite E. cbn [bind]. eexists. split; [reflexivity|]. unfold rs_rep. rewrite <- Hr.
    destruct (is_some (fm_find borrow eqq q (map ut s))) eqn:Ei; [exact H'|].
    now rewrite (remove_absent borrow qcmp (map ut s) q Ei).
  - destruct (rb_remove_ok dbg tcmp borrow qcmp OL KB m _ q H) as (m' & E & H').
    unfold rs_remove_mut. rewrite E. cbn [bind]. rewrite Hf, is_some_map.
    eexists. split; [reflexivity|]. unfold rs_rep. now rewrite <- Hr.
  - eexists. split; [|exact H]. unfold rs_get, rb_get_key_value. rewrite (rb_get_ok tcmp borrow qcmp OL KB m _ q H), Hf.
    now destruct (set_find borrow eqq q s).
  - eexists. split; [|exact H]. unfold rs_contains, rb_contains_key, rb_get.
    rewrite (rb_get_ok tcmp borrow qcmp OL KB m _ q H), Hf, !is_some_map. reflexivity.
  - eexists. split; [|exact H]. unfold rs_size. destruct H as (_ & _ & -> & _). now rewrite map_length.
  - eexists. split; [|exact H]. unfold rs_is_empty, rs_size. destruct H as (_ & _ & -> & _). rewrite map_length. now destruct s.
  - eauto.
Qed.

Lemma rs_extend_ok : forall ts m s, rs_rep m s ->
  exists m', rs_extend tcmp m ts = Ok m' /\
    rs_rep m' (fold_left (fun acc t => t :: filter (fun x => negb (eqt x t)) acc) ts s).
Proof.
  induction ts as [|t ts IH]; intros m s H; cbn [rs_extend fold_left]; [eauto|].
  destruct (rs_insert_ok m s t H) as (m' & E & H'). rewrite E. cbn [bind]. now apply IH.
Qed.
End Set_.

Section SetIt.
Context {T : Type}.
Variable tcmp : T -> T -> comparison.
Hypothesis OL : ord_laws tcmp.
Set Default Proof Using "OL".
Notation eqt := (eq_of tcmp).
Notation rep := (rs_rep tcmp).

Definition elts (m : rset T) : list T := map fst (elems (rb_root m)).
Definition tsorted (l : list T) : Prop := StronglySorted (fun a b => tcmp a b = Lt) l.

Definition si_ok (m : rset T) (i : rbiter T unit) (L : list T) : Prop :=
  exists E, L = map fst E /\ it_ok tcmp m i E.

Lemma hd_map : forall A B (f : A -> B) l, hd_error (map f l) = option_map f (hd_error l).
Proof using. intros A B f [|]; reflexivity. Qed.
Lemma tl_map : forall A B (f : A -> B) l, tl (map f l) = map f (tl l).
Proof using. intros A B f [|]; reflexivity. Qed.
Lemma last_map : forall A B (f : A -> B) l, last_error (map f l) = option_map f (last_error l).
Proof using.
  intros A B f l. induction l as [|a l] using rev_ind; [reflexivity|]. rewrite map_app. cbn [map].
  now rewrite !last_error_app.
Qed.
Lemma removelast_map : forall A B (f : A -> B) l, removelast (map f l) = map f (removelast l).
Proof using.
  intros A B f l. induction l as [|a l] using rev_ind; [reflexivity|]. rewrite map_app. cbn [map].
  now rewrite !removelast_snoc.
Qed.

Lemma si_sim2 : forall m : rset T, sorted tcmp (elems (rb_root m)) ->
  iter_sim2 (si_next tcmp) (si_next_back tcmp) it_hint (si_ok m).
Proof.
  intros m Hs i L (E & -> & H). destruct (it_sim2 tcmp OL m Hs i E H) as (Hh & (i1 & E1 & H1) & (i2 & E2 & H2)).
  split; [now rewrite map_length|]. unfold si_next, si_next_back. rewrite E1, E2. cbn [bind]. split.
  - exists i1. rewrite hd_map, tl_map. split; [reflexivity|]. exists (tl E). auto.
  - exists i2. rewrite last_map, removelast_map. split; [reflexivity|]. exists (removelast E). auto.
Qed.
Lemma si_sim0 : forall m : rset T, sorted tcmp (elems (rb_root m)) -> iter_sim0 (si_next tcmp) (si_ok m).
Proof. intros m Hs i L H. now destruct (si_sim2 m Hs i L H) as (_ & H1 & _). Qed.

Lemma si_new_ok : forall m s, rep m s -> si_ok m (it_new m) (elts m).
Proof. intros m s H. exists (elems (rb_root m)). split; [reflexivity|]. apply it_new_ok. eapply rep_size; eassumption. Qed.

Lemma elts_sorted : forall m s, rep m s -> tsorted (elts m).
Proof.
  intros m s (Hs & _). unfold elts. unfold sorted in Hs. induction Hs as [|a l Hs IH F]; cbn [map]; [constructor|].
  constructor; [exact IH|]. rewrite Forall_forall in *. intros x Hx. apply in_map_iff in Hx as (y & <- & Hy). auto.
Qed.
Lemma elts_perm : forall m s, rep m s -> Permutation (elts m) s.
Proof. intros m s (_ & Hp & _). now apply perm_ut. Qed.
Lemma elts_size : forall m s, rep m s -> rs_size m = length (elts m).
Proof. intros m s H. unfold elts. rewrite map_length. exact (rep_size _ _ _ H). Qed.

Lemma rs_elems_ok : forall m s, rep m s -> rs_elems tcmp m = Ok (elts m).
Proof.
  intros m s H. unfold rs_elems. eapply sim_collect; [apply si_sim0; eapply rep_sorted; exact H|eapply si_new_ok; exact H|].
  rewrite (elts_size _ _ H). lia.
Qed.

(** *** is_disjoint *)
Lemma disjoint_loop_ok : forall m1 m2 : rset T, sorted tcmp (elems (rb_root m1)) -> sorted tcmp (elems (rb_root m2)) ->
  forall fuel l1 l2 i1 i2, si_ok m1 i1 (tl l1) -> si_ok m2 i2 (tl l2) -> tsorted l1 -> tsorted l2 ->
  length l1 + length l2 < fuel ->
  exists r, disjoint_loop tcmp fuel (hd_error l1) (hd_error l2) i1 i2 = Ok r /\
    (r = true <-> forall x y, In x l1 -> In y l2 -> tcmp x y <> Eq).
Proof.
  intros m1 m2 Hs1 Hs2. induction fuel as [|fuel IH]; intros l1 l2 i1 i2 H1 H2 T1 T2 Hf; [lia|]. cbn [disjoint_loop].
  destruct l1 as [|v l1]; cbn [hd_error].
  { exists true. split; [reflexivity|]. split; [|reflexivity]. intros _ x y []. }
  destruct l2 as [|u l2]; cbn [hd_error].
  { exists true. split; [reflexivity|]. split; [|reflexivity]. intros _ x y _ []. }
  cbn [tl length] in *. inversion T1 as [|? ? T1' F1]; subst. inversion T2 as [|? ? T2' F2]; subst. rewrite Forall_forall in F1, F2.
  destruct (tcmp v u) eqn:E.
  - exists false. split; [reflexivity|]. split; [discriminate|]. intros H. exfalso. apply (H v u); [now left|now left|exact E].
  - destruct (si_sim0 m1 Hs1 i1 l1 H1) as (i1' & -> & H1'). cbn [bind].
    destruct (IH l1 (u :: l2) i1' i2 H1' H2 T1' T2 ltac:(cbn [length]; lia)) as (r & Er & Hr).
    exists r. split; [exact Er|]. rewrite Hr. split; intros H x y Hx Hy.
    + destruct Hx as [<-|Hx]; [|now apply H]. intros Exy. destruct Hy as [<-|Hy]; [congruence|].
      pose proof (ol_trans _ OL _ _ _ E (F2 _ Hy)). congruence.
    + apply H; [now right|assumption].
  - destruct (si_sim0 m2 Hs2 i2 l2 H2) as (i2' & -> & H2'). cbn [bind].
    destruct (IH (v :: l1) l2 i1 i2' H1 H2' T1 T2' ltac:(cbn [length]; lia)) as (r & Er & Hr).
    exists r. split; [exact Er|]. rewrite Hr. split; intros H x y Hx Hy.
    + destruct Hy as [<-|Hy]; [|now apply H]. intros Exy. apply (cmp_gt _ OL) in E. destruct Hx as [<-|Hx].
      * rewrite (ol_sym _ OL), E in Exy. discriminate.
      * pose proof (ol_trans _ OL _ _ _ E (F1 _ Hx)) as E3. rewrite (ol_sym _ OL), Exy in E3. discriminate.
    + apply H; [assumption|now right].
Qed.

Lemma disjoint_iff : forall l1 l2, disjoint eqt l1 l2 <-> forall x y, In x l1 -> In y l2 -> tcmp x y <> Eq.
Proof.
  intros l1 l2. unfold disjoint, has. split.
  - intros H x y Hx Hy E. apply (H x). split; [exists x|exists y]; (split; [assumption|]); unfold eq_of; [now rewrite (cmp_refl _ OL)|now rewrite E].
  - intros H x ((y & Hy & Ey) & (z & Hz & Ez)). unfold eq_of in *. destruct (tcmp x y) eqn:E1; try discriminate.
    destruct (tcmp x z) eqn:E2; try discriminate. apply (H y z Hy Hz). now rewrite <- (ol_eq _ OL _ _ z E1).
Qed.
Lemma disjoint_perm : forall l1 l2 s1 s2, Permutation l1 s1 -> Permutation l2 s2 -> (disjoint eqt l1 l2 <-> disjoint eqt s1 s2).
Proof.
  intros l1 l2 s1 s2 P1 P2. unfold disjoint, has. split; intros H x ((y & Hy & Ey) & (z & Hz & Ez)); apply (H x);
    (split; [exists y|exists z]); split; auto; (eapply Permutation_in; [|eassumption]); auto using Permutation_sym.
Qed.

Lemma rs_is_disjoint_ok : forall m1 m2 s1 s2, rep m1 s1 -> rep m2 s2 ->
  exists r, rs_is_disjoint tcmp m1 m2 = Ok r /\ (r = true <-> disjoint eqt s1 s2).
Proof.
  intros m1 m2 s1 s2 H1 H2. unfold rs_is_disjoint.
  destruct (si_sim0 m1 (rep_sorted _ _ _ H1) _ _ (si_new_ok _ _ H1)) as (i1 & -> & I1).
  destruct (si_sim0 m2 (rep_sorted _ _ _ H2) _ _ (si_new_ok _ _ H2)) as (i2 & -> & I2). cbn [bind].
  destruct (disjoint_loop_ok m1 m2 (rep_sorted _ _ _ H1) (rep_sorted _ _ _ H2) (S (rs_size m1 + rs_size m2))
    (elts m1) (elts m2) i1 i2 I1 I2 (elts_sorted _ _ H1) (elts_sorted _ _ H2)) as (r & Er & Hr).
  - rewrite (elts_size _ _ H1), (elts_size _ _ H2). lia.
  - exists r. split; [exact Er|]. rewrite Hr, <- disjoint_iff. apply disjoint_perm; [exact (elts_perm _ _ H1)|exact (elts_perm _ _ H2)].
Qed.

(** *** is_subset *)
Lemma subset_seek_ok : forall m2 : rset T, sorted tcmp (elems (rb_root m2)) -> forall l2 fuel i2 v, si_ok m2 i2 l2 -> tsorted l2 ->
  length l2 < fuel ->
  (exists i2' l2', subset_seek tcmp fuel v i2 = Ok (Some i2') /\ si_ok m2 i2' l2' /\ tsorted l2' /\ length l2' <= length l2 /\
     incl l2' l2 /\
     (exists u, In u l2 /\ tcmp u v = Eq) /\ forall w, tcmp v w = Lt -> forall y, In y l2 -> tcmp w y = Eq -> In y l2') \/
  (subset_seek tcmp fuel v i2 = Ok None /\ forall u, In u l2 -> tcmp u v <> Eq).
Proof.
  intros m2 Hs2. induction l2 as [|u l2 IH]; intros fuel i2 v H2 T2 Hf; (destruct fuel as [|fuel]; [cbn in Hf; lia|]); cbn [subset_seek];
    destruct (si_sim0 m2 Hs2 _ _ H2) as (i2' & -> & H2'); cbn [bind hd_error tl length] in *.
  - right. split; [reflexivity|]. intros u [].
  - inversion T2 as [|? ? T2' F2]; subst. rewrite Forall_forall in F2. destruct (tcmp u v) eqn:E.
    + left. exists i2', l2. split; [reflexivity|]. split; [exact H2'|]. split; [exact T2'|]. split; [lia|].
      split; [intros x Hx; now right|]. split; [exists u; split; [now left|exact E]|].
      intros w Hw y [<-|Hy] Ey; [|exact Hy]. exfalso. rewrite (ol_sym _ OL), (ol_eq _ OL _ _ w E), Hw in Ey. discriminate.
    + destruct (IH fuel i2' v H2' T2' ltac:(lia)) as [(i & l & E1 & E2 & E3 & E4 & E6 & (x & Hx & Ex) & E5)|(E1 & E2)].
      * left. exists i, l. split; [exact E1|]. split; [exact E2|]. split; [exact E3|]. split; [lia|].
        split; [intros z Hz; right; auto|]. split; [exists x; split; [now right|exact Ex]|].
        intros w Hw y [<-|Hy] Ey; [|eapply E5; eassumption]. exfalso.
        pose proof (ol_trans _ OL _ _ _ E Hw) as E7. rewrite (ol_sym _ OL), Ey in E7. discriminate.
      * right. split; [exact E1|]. intros x [<-|Hx]; [congruence|auto].
    + right. split; [reflexivity|]. intros x [<-|Hx]; [congruence|]. intros Ex.
      apply (cmp_gt _ OL) in E. pose proof (ol_trans _ OL _ _ _ E (F2 _ Hx)) as E3. rewrite (ol_sym _ OL), Ex in E3. discriminate.
Qed.

Lemma subset_loop_ok : forall m1 m2 : rset T, sorted tcmp (elems (rb_root m1)) -> sorted tcmp (elems (rb_root m2)) ->
  forall l1 fuel l2 fuel' i1 i2, si_ok m1 i1 l1 -> si_ok m2 i2 l2 -> tsorted l1 -> tsorted l2 ->
  length l1 < fuel -> length l2 < fuel' ->
  exists r, subset_loop tcmp fuel fuel' i1 i2 = Ok r /\
    (r = true <-> forall x, In x l1 -> exists y, In y l2 /\ tcmp x y = Eq).
Proof.
  intros m1 m2 Hs1 Hs2. induction l1 as [|v l1 IH]; intros fuel l2 fuel' i1 i2 H1 H2 T1 T2 Hf Hf'; (destruct fuel as [|fuel]; [cbn in Hf; lia|]);
    cbn [subset_loop]; destruct (si_sim0 m1 Hs1 _ _ H1) as (i1' & -> & H1'); cbn [bind hd_error tl length] in *.
  - exists true. split; [reflexivity|]. split; [|reflexivity]. intros _ x [].
  - inversion T1 as [|? ? T1' F1]; subst. rewrite Forall_forall in F1.
    destruct (subset_seek_ok m2 Hs2 l2 fuel' i2 v H2 T2 Hf') as [(i & l & E1 & E2 & E3 & E4 & E6 & (u & Hu & Eu) & E5)|(E1 & E2)].
    + rewrite E1. cbn [bind]. destruct (IH fuel l fuel' i1' i H1' E2 T1' E3 ltac:(lia) ltac:(lia)) as (r & Er & Hr).
      exists r. split; [exact Er|]. rewrite Hr. split; intros H x Hx.
      * destruct Hx as [<-|Hx]; [exists u; split; [exact Hu|now apply (cmp_eq_sym _ OL)]|].
        destruct (H x Hx) as (y & Hy & Ey). exists y. auto.
      * destruct (H x (or_intror Hx)) as (y & Hy & Ey). exists y. split; [|exact Ey]. eapply E5; eauto.
    + rewrite E1. cbn [bind]. exists false. split; [reflexivity|]. split; [discriminate|]. intros H. exfalso.
      destruct (H v (or_introl eq_refl)) as (y & Hy & Ey). apply (E2 y Hy). now apply (cmp_eq_sym _ OL).
Qed.

Lemma subset_iff : forall l1 l2, subset eqt l1 l2 <-> forall x, In x l1 -> exists y, In y l2 /\ tcmp x y = Eq.
Proof.
  intros l1 l2. unfold subset, has. split.
  - intros H x Hx. destruct (H x) as (y & Hy & Ey); [exists x; split; [assumption|unfold eq_of; now rewrite (cmp_refl _ OL)]|].
    exists y. split; [assumption|]. unfold eq_of in Ey. now destruct (tcmp x y).
  - intros H x (y & Hy & Ey). unfold eq_of in Ey. destruct (tcmp x y) eqn:E; try discriminate.
    destruct (H y Hy) as (z & Hz & Ez). exists z. split; [assumption|]. unfold eq_of. now rewrite (ol_eq _ OL _ _ z E), Ez.
Qed.
Lemma subset_perm : forall l1 l2 s1 s2, Permutation l1 s1 -> Permutation l2 s2 -> (subset eqt l1 l2 <-> subset eqt s1 s2).
Proof.
  intros l1 l2 s1 s2 P1 P2. unfold subset, has. split; intros H x (y & Hy & Ey);
    (destruct (H x) as (z & Hz & Ez); [exists y; split; auto; eapply Permutation_in; [|eassumption]; auto using Permutation_sym|]);
    exists z; split; auto; (eapply Permutation_in; [|eassumption]); auto using Permutation_sym.
Qed.

Lemma KLt : key_laws eqt (fun t : T => t) eqt.
Proof. exact (KLk tcmp OL). Qed.

Lemma rep_uset : forall m s, rep m s -> unique_keys eqt (map ut s).
Proof. intros m s H. exact (rep_unique tcmp (fun k => k) tcmp OL (KBi tcmp) m _ H). Qed.

Lemma rs_is_subset_ok : forall same m1 m2 s1 s2, rep m1 s1 -> rep m2 s2 ->
  (same = true -> rb_root m1 = rb_root m2) ->
  exists r, rs_is_subset tcmp same m1 m2 = Ok r /\ (r = true <-> subset eqt s1 s2).
Proof.
  intros same m1 m2 s1 s2 H1 H2 Hsame. unfold rs_is_subset. destruct same.
  { exists true. split; [reflexivity|]. split; [|reflexivity]. intros _.
    apply (subset_perm (elts m1) (elts m2)); [eapply elts_perm; eassumption|eapply elts_perm; eassumption|].
    unfold elts. rewrite (Hsame eq_refl). intros x Hx. exact Hx. }
  destruct (Nat.ltb_spec (rs_size m2) (rs_size m1)) as [Hl|Hl].
  { exists false. split; [reflexivity|]. split; [discriminate|]. intros H. exfalso.
    pose proof (subset_length eqt KLt s1 s2 (rep_uset _ _ H1) (rep_uset _ _ H2) H) as Hle.
    rewrite (elts_size _ _ H1), (elts_size _ _ H2) in Hl.
    rewrite (Permutation_length (elts_perm _ _ H1)), (Permutation_length (elts_perm _ _ H2)) in Hl. lia. }
  destruct (subset_loop_ok m1 m2 (rep_sorted _ _ _ H1) (rep_sorted _ _ _ H2) (elts m1) (S (rs_size m1)) (elts m2) (S (rs_size m2))
    (it_new m1) (it_new m2) (si_new_ok _ _ H1) (si_new_ok _ _ H2) (elts_sorted _ _ H1) (elts_sorted _ _ H2)) as (r & Er & Hr).
  - rewrite (elts_size _ _ H1). lia.
  - rewrite (elts_size _ _ H2). lia.
  - exists r. split; [exact Er|]. rewrite Hr, <- subset_iff. apply subset_perm; eapply elts_perm; eassumption.
Qed.

Lemma rs_eq_ok : forall same m1 m2 s1 s2, rep m1 s1 -> rep m2 s2 ->
  (same = true -> rb_root m1 = rb_root m2) ->
  exists r, rs_eq tcmp same m1 m2 = Ok r /\ (r = true <-> set_equal eqt s1 s2).
Proof.
  intros same m1 m2 s1 s2 H1 H2 Hsame. unfold rs_eq.
  destruct (rb_eq_ok tcmp OL (fun _ _ => true) same m1 m2 _ _ H1 H2) as (r & E & Hr).
  - intros Es. auto.
  - exists r. split; [exact E|]. rewrite Hr. symmetry. exact (set_equal_fm eqt KLt s1 s2).
Qed.
End SetIt.
