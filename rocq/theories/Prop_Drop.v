(** Property C55: the collections after the [Drop] of an element, key or value has panicked
    inside a call and the panic was caught. *)
From Coq Require Import List NArith Arith Bool Lia Permutation.
From Verif Require Import Base Spec SpecMap SpecOrd Sim ListModel ListProofs VectorModel VectorProofs VectorOps VectorIter VectorHist
  SparseModel HashModel HashProofs HashHist HashExtraProofs HashIter Prop_Hash RBModel RBProofs RBHist Prop_RB
  CrashModel CrashProofs Prop_Crash DropModel DropProofs DropRBProofs DropHashProofs.
Import ListNotations.

(** In all theorems [d_exec] runs a history of calls each of which carries a flag: whether the
    [Drop] of the element, key or value that the call gives up panics.  [told ops outs xs]
    says that each call answered as in [xs], or not at all if it panicked. *)

(** ** List, Stack, Queue: a call that panics has done all its work. *)
Theorem C55_list_history : forall (T : Type) (ops : list (bool * list_op T)), exists l outs,
  d_exec d_l_step ops l_new = Ok (l, outs) /\
  told ops outs (snd (exec_s list_spec (map snd ops) [])) /\
  l_elems l = Ok (fst (exec_s list_spec (map snd ops) [])) /\
  exists outs', exec_m l_step (map snd ops) l_new = Ok (l, outs').
Proof.
  intros T ops. destruct (list_history (map snd ops)) as (l & E & R).
  destruct (d_history _ _ _ d_l_step l_step (fun _ => True) (fun _ _ => True)
    (fun b o m _ _ => d_l_step_lands b o m) (fun _ _ _ _ _ _ => I) ops l_new l _ I
    ltac:(now apply Forall_forall) E) as (outs & Ed & Ht).
  exists l, outs. split; [exact Ed|]. split; [exact Ht|]. split; [exact (l_elems_ok _ _ R)|]. eauto.
Qed.
Print Assumptions C55_list_history.

Theorem C55_stack_history : forall (T : Type) (ops : list (bool * stack_op T)), exists s outs,
  d_exec d_s_step ops ListModel.s_new = Ok (s, outs) /\
  told ops outs (snd (exec_s stack_spec (map snd ops) [])) /\
  exists outs', exec_m s_step (map snd ops) ListModel.s_new = Ok (s, outs').
Proof.
  intros T ops. destruct (stack_history (map snd ops)) as (l & E & R).
  destruct (d_history _ _ _ d_s_step s_step (fun _ => True) (fun _ _ => True)
    (fun b o m _ _ => d_s_step_lands b o m) (fun _ _ _ _ _ _ => I) ops ListModel.s_new l _ I
    ltac:(now apply Forall_forall) E) as (outs & Ed & Ht).
  exists l, outs. split; [exact Ed|]. split; [exact Ht|]. eauto.
Qed.
Print Assumptions C55_stack_history.

Theorem C55_queue_history : forall (T : Type) (ops : list (bool * queue_op T)), exists q outs,
  d_exec d_q_step ops q_new = Ok (q, outs) /\
  told ops outs (snd (exec_s queue_spec (map snd ops) [])) /\
  exists outs', exec_m q_step (map snd ops) q_new = Ok (q, outs').
Proof.
  intros T ops. destruct (queue_history (map snd ops)) as (l & E & R).
  destruct (d_history _ _ _ d_q_step q_step (fun _ => True) (fun _ _ => True)
    (fun b o m _ _ => d_q_step_lands b o m) (fun _ _ _ _ _ _ => I) ops q_new l _ I
    ltac:(now apply Forall_forall) E) as (outs & Ed & Ht).
  exists l, outs. split; [exact Ed|]. split; [exact Ht|]. eauto.
Qed.
Print Assumptions C55_queue_history.

Example C55_seq_case :
  d_exec d_l_step [(false, LPush 1); (false, LPushMut 2); (true, LDropMut); (false, LFirst); (true, LDropMut); (true, LDropMut); (false, LLen)] l_new
    = Ok (l_new, [Some OUnit; Some OUnit; None; Some (OElem (Some 1)); None; Some (OBool false); Some (ONat 0)]) /\
  d_exec d_q_step [(false, QEnqMut 1); (false, QEnqMut 2); (true, QDeqMut); (false, QPeek)] q_new
    = Ok (mkQ l_new (mkL [2] (Some 2) 1), [Some OUnit; Some OUnit; None; Some (OElem (Some 2))]).
Proof. split; reflexivity. Qed.

(** ** Vector *)
Section VectorClaims.
Local Open Scope N_scope.

(** [set_mut] has done its work too (also when the index is out of range and the new element
    itself is given up). *)
Theorem C55_vector_history : forall (T : Type) (ubits : N) (dbg : bool) (bits : N),
  8 <= ubits -> 0 < bits < ubits ->
  forall ops : list (bool * vec_op T),
  (forall o, In (true, o) ops -> o <> VDropMut) ->
  stays_within (fun s => N.of_nat (length s)) (vec_limit ubits dbg bits) vec_spec (map snd ops) [] ->
  exists v0 v outs, v_new_with_bits bits = Ok v0 /\
    d_exec (d_v_step ubits dbg) ops v0 = Ok (v, outs) /\
    told ops outs (snd (exec_s vec_spec (map snd ops) [])) /\
    v_elems ubits dbg v = Ok (fst (exec_s vec_spec (map snd ops) [])).
Proof.
  intros T ubits dbg bits Hu [Hb Hbu] ops Hno Hw.
  destruct (vector_history ubits dbg bits Hu Hb Hbu (map snd ops) Hw) as (v0 & v & E0 & E & Hr).
  assert (Hq : Forall (fun bo => fst bo = true -> snd bo <> VDropMut) ops).
  { apply Forall_forall. intros [b o] Hin Hb'. cbn [fst snd] in *. subst b. now apply Hno. }
  destruct (d_history _ _ _ (d_v_step ubits dbg) (v_step ubits dbg) (fun _ => True) (fun b o => b = true -> o <> VDropMut)
    (fun b o m _ H => d_v_step_lands ubits dbg b o m H) (fun _ _ _ _ _ _ => I) ops v0 v _ I Hq E) as (outs & Ed & Ht).
  exists v0, v, outs. split; [exact E0|]. split; [exact Ed|]. split; [exact Ht|].
  apply (v_elems_ok ubits dbg bits Hu Hb Hbu v _ Hr).
  pose proof (stays_within_last _ _ _ _ _ _ _ _ Hw) as H.
  pose proof (limit_lt ubits dbg bits Hu Hb Hbu). unfold len. cbv beta in H. lia.
Qed.
Print Assumptions C55_vector_history.

(** [drop_last_mut] has not: on every vector that has an element the length is left one too
    great, [get] and [last] of the last position panic, and the others are right. *)
Theorem C55_vector_drop_last_refuted : forall (T : Type) (ubits : N) (dbg : bool) (bits : N),
  8 <= ubits -> 0 < bits < ubits ->
  forall (v : rvec T) (l : list T) (x : T), vec_reached ubits dbg bits v (l ++ [x]) ->
  exists v', d_v_drop_last_mut ubits dbg true v = Ok (Thrown v') /\
    v_len v' = N.of_nat (length l) + 1 /\
    v_get ubits dbg v' (N.of_nat (length l)) = Panic /\
    (forall i, i < N.of_nat (length l) -> v_get ubits dbg v' i = Ok (nth_error l (N.to_nat i))).
Proof.
  intros T ubits dbg bits Hu [Hb Hbu] v l x H. destruct (VectorHist.reached_rep ubits dbg bits Hu Hb Hbu v _ H) as (Hr & _ & Hlt).
  destruct (d_v_drop_last_thrown ubits dbg bits Hu Hb Hbu v l x Hr Hlt) as (v' & E & El & _ & Hg).
  exists v'. split; [exact E|]. split.
  { unfold v_len. rewrite El, len_app, len_cons, len_nil. unfold len. lia. }
  unfold len in Hg. split.
  - rewrite Hg by lia. rewrite Nnat.Nat2N.id.
    assert (En : nth_error l (length l) = None) by (apply nth_error_None; lia). now rewrite En.
  - intros i Hi. rewrite Hg by lia. destruct (nth_error l (N.to_nat i)) eqn:En; [reflexivity|].
    apply nth_error_None in En. lia.
Qed.
Print Assumptions C55_vector_drop_last_refuted.

(** Writing to the last position mends it. *)
Theorem C55_vector_set_mends : forall (T : Type) (ubits : N) (dbg : bool) (bits : N),
  8 <= ubits -> 0 < bits < ubits ->
  forall (v : rvec T) (l : list T) (x y : T), vec_reached ubits dbg bits v (l ++ [x]) ->
  exists v' v'', d_v_drop_last_mut ubits dbg true v = Ok (Thrown v') /\
    v_set_mut ubits dbg v' (N.of_nat (length l)) y = Ok (v'', true) /\
    v_elems ubits dbg v'' = Ok (l ++ [y]).
Proof.
  intros T ubits dbg bits Hu [Hb Hbu] v l x y H. destruct (VectorHist.reached_rep ubits dbg bits Hu Hb Hbu v _ H) as (Hr & Hlim & Hlt).
  destruct (d_v_drop_last_repair ubits dbg bits Hu Hb Hbu v l x y Hr Hlim) as (v' & v'' & E1 & E2 & Hr'').
  exists v', v''. split; [exact E1|]. split; [exact E2|]. apply (v_elems_ok ubits dbg bits Hu Hb Hbu v'' _ Hr'').
  rewrite len_app, len_cons, len_nil in *. exact Hlt.
Qed.
Print Assumptions C55_vector_set_mends.

(** Three elements in nodes of two; the last is dropped with a panic.  [push_back_mut]
    then panics as well. *)
Example C55_vector_case : exists v v' v'', vec_reached 64 true 1 v [1; 2; 3]%nat /\
  d_v_drop_last_mut 64 true true v = Ok (Thrown v') /\
  v_len v' = 3 /\ v_get 64 true v' 2 = Panic /\ v_push_back_mut 64 true v' 4%nat = Panic /\
  v_set_mut 64 true v' 2 5%nat = Ok (v'', true) /\ v_elems 64 true v'' = Ok [1; 2; 5]%nat.
Proof.
  do 3 eexists. split.
  - eexists _, [VPush 1%nat; VPush 2%nat; VPush 3%nat], _. split; [reflexivity|].
    split; [vm_compute; repeat split; discriminate|]. split; vm_compute; reflexivity.
  - split; [vm_compute; reflexivity|]. repeat split; vm_compute; reflexivity.
Qed.
Example C55_vector_history_case :
  (let! v0 := v_new_with_bits 1 in
   let! (v, outs) := d_exec (d_v_step 64 true)
     [(false, VPush 1); (false, VPushMut 2); (true, VSetMut 0 7); (true, VSetMut 9 8); (false, VGet 0); (true, VSetMut 1 9); (false, VLen)]%nat v0 in
   let! l := v_elems 64 true v in Ok (outs, l))
  = Ok ([Some OUnit; Some OUnit; None; None; Some (OElem (Some 7)); None; Some (ONat 2)], [7; 9])%nat.
Proof. vm_compute. reflexivity. Qed.
End VectorClaims.

(** ** RedBlackTreeMap *)

(** [insert_mut] has done its work when it panics, and it can panic only if it replaced an
    entry. *)
Theorem C55_rb_insert : forall (K V Q : Type) (dbg : bool) (kcmp : K -> K -> comparison) (borrow : K -> Q)
  (qcmp : Q -> Q -> comparison), ord_laws qcmp -> borrow_agrees kcmp borrow qcmp ->
  forall (m : rbmap K V) (fm : fmap K V), rb_reached dbg kcmp borrow qcmp m fm ->
  forall k v, exists m', rb_insert_mut kcmp m k v = Ok m' /\
    d_rb_insert_mut kcmp true m k v
      = Ok (if is_some (fm_find borrow (eq_of qcmp) (borrow k) fm) then Thrown m' else Calm m').
Proof.
  intros K V Q dbg kcmp borrow qcmp OL KB m fm H k v.
  pose proof (rb_reached_rep K V Q dbg kcmp borrow qcmp m fm OL KB H) as Hr.
  destruct (rb_insert_ok kcmp borrow qcmp OL KB m fm k v Hr) as (m' & E & Hr'). exists m'. split; [exact E|].
  unfold d_rb_insert_mut. unfold rb_insert_mut, n_insert in E.
  rewrite d_ins_thrown by (intros _; apply Hr).
  pose proof Hr as (Hs & _ & Hz & (h & Ht) & _).
  destruct (ins_ok kcmp borrow qcmp OL KB k v (rb_root m) h Hs Ht) as (t' & new & Ei & _ & En & _).
  rewrite (rep_find kcmp borrow qcmp OL KB m fm _ Hr) in En.
  rewrite ins_root, Ei in *. cbn [bind] in *. injection E as <-. rewrite En.
  destruct (is_some (fm_find borrow (eq_of qcmp) (borrow k) fm)); cbn [negb fbind bind]; reflexivity.
Qed.
Print Assumptions C55_rb_insert.

Lemma d_rb_step_lands : forall (K V Q : Type) dbg kcmp (borrow : K -> Q) qcmp b (o : map_op K V Q) m,
  notred (rb_root m) -> (b = true -> forall q, o <> MRemoveMut q) ->
  lands b (d_rb_step dbg kcmp borrow qcmp b o m) (rb_step dbg kcmp borrow qcmp o m).
Proof.
  intros K V Q dbg kcmp borrow qcmp b o m Hn Hb. destruct o as [k v|k v|q|q|q f|q|q|q| | |]; cbn [d_rb_step]; try apply lands_calm.
  - cbn [rb_step]. destruct (d_rb_insert_lands kcmp b m k v Hn) as [->|[-> ->]].
    + left. destruct (rb_insert_mut kcmp m k v); reflexivity.
    + right. split; [reflexivity|]. destruct (rb_insert_mut kcmp m k v); reflexivity.
  - destruct b; [destruct (Hb eq_refl q); reflexivity|]. left. cbn [rb_step].
    unfold d_rb_remove_mut, rb_remove_mut, n_remove. rewrite d_del_calm.
    destruct (del dbg borrow qcmp (rb_root m) q true) as [[t' [|]]| |]; cbn [calmly bind fbind]; try reflexivity.
    destruct (csub (rb_size m) 1); reflexivity.
Qed.

Theorem C55_rb_history : forall (K V Q : Type) (dbg : bool) (kcmp : K -> K -> comparison) (borrow : K -> Q)
  (qcmp : Q -> Q -> comparison), ord_laws qcmp -> borrow_agrees kcmp borrow qcmp ->
  forall ops : list (bool * map_op K V Q), (forall q, ~ In (true, MRemoveMut q) ops) ->
  exists m outs, d_exec (d_rb_step dbg kcmp borrow qcmp) ops rb_new = Ok (m, outs) /\
    told ops outs (snd (exec_s (map_spec (eq_of kcmp) borrow (eq_of qcmp)) (map snd ops) [])) /\
    rb_reached dbg kcmp borrow qcmp m (fst (exec_s (map_spec (eq_of kcmp) borrow (eq_of qcmp)) (map snd ops) [])).
Proof.
  intros K V Q dbg kcmp borrow qcmp OL KB ops Hno.
  destruct (rb_history dbg kcmp borrow qcmp OL KB (map snd ops)) as (m & E & Hr).
  assert (Hq : Forall (fun bo => fst bo = true -> forall q, snd bo <> MRemoveMut q) ops).
  { apply Forall_forall. intros [b o] Hin Hb q Ho. cbn [fst snd] in *. subst. now apply (Hno q). }
  set (P := fun m : rbmap K V => exists fm, rb_rep kcmp m fm).
  assert (H0 : P rb_new) by (exists []; apply rb_new_ok).
  edestruct (d_history _ _ _ (d_rb_step dbg kcmp borrow qcmp) (rb_step dbg kcmp borrow qcmp) P
    (fun b o => b = true -> forall q, o <> MRemoveMut q)) with (3 := H0) (4 := Hq) (5 := E) as (outs & Ed & Ht).
  - intros b o m1 (fm1 & H1) Hb. apply d_rb_step_lands; [apply H1|exact Hb].
  - intros o m1 m2 x (fm1 & H1) E1. destruct (rb_step_ok dbg kcmp borrow qcmp OL KB o m1 fm1 H1) as (m3 & E3 & H3).
    rewrite E1 in E3. injection E3 as -> _. unfold P. eauto.
  - exists m, outs. split; [exact Ed|]. split; [exact Ht|]. exists (map snd ops). eauto.
Qed.
Print Assumptions C55_rb_history.

Lemma subseq_length : forall A (s l : list A), subseq s l -> length s <= length l.
Proof. intros A s l H. induction H; cbn [length]; lia. Qed.

Lemma subseq_lost : forall A (s l : list A), subseq s l -> exists lost, Permutation (s ++ lost) l.
Proof.
  intros A s l H. induction H as [|x s l H (t & IH)|x s l H (t & IH)].
  - now exists [].
  - exists t. cbn [app]. now constructor.
  - exists (x :: t). rewrite <- Permutation_middle. now constructor.
Qed.

Lemma filter_len : forall A (p : A -> bool) l, length (filter p l) <= length l.
Proof. intros A p l. induction l as [|a l IH]; cbn [filter]; [lia|]. destruct (p a); cbn [length]; lia. Qed.

Lemma filter_mid : forall A (p : A -> bool) a e b, p e = true -> uniq p (a ++ e :: b) ->
  filter (fun x => negb (p x)) (a ++ e :: b) = a ++ b.
Proof.
  intros A p a e b He Hu. unfold uniq in Hu. rewrite filter_app in *. cbn [filter] in *. rewrite He in *. cbn [negb].
  rewrite app_length in Hu. cbn [length] in Hu.
  assert (Ha : filter p a = []) by (apply length_zero_iff_nil; lia).
  assert (Hb : filter p b = []) by (apply length_zero_iff_nil; lia).
  apply nomatch_filter0 in Ha, Hb. now rewrite (nomatch_filter _ a Ha), (nomatch_filter _ b Hb).
Qed.

(** [remove_mut] of a key that is there, interrupted by the drop of its entry: the size stays,
    other entries may be lost ([lost]), what remains is in order and is what lookups find. *)
Theorem C55_rb_remove : forall (K V Q : Type) (dbg : bool) (kcmp : K -> K -> comparison) (borrow : K -> Q)
  (qcmp : Q -> Q -> comparison), ord_laws qcmp -> borrow_agrees kcmp borrow qcmp ->
  forall (m : rbmap K V) (fm : fmap K V), rb_reached dbg kcmp borrow qcmp m fm ->
  forall q e, fm_find borrow (eq_of qcmp) q fm = Some e ->
  exists m' kept lost, d_rb_step dbg kcmp borrow qcmp true (MRemoveMut q) m = Ok (Thrown m') /\
    rb_size m' = length fm /\
    rb_entries kcmp m' = Ok kept /\
    Permutation (kept ++ lost) (fm_remove borrow (eq_of qcmp) q fm) /\
    sorted kcmp kept /\
    (forall q', rb_get_key_value borrow qcmp m' q' = fm_find borrow (eq_of qcmp) q' kept).
Proof.
  intros K V Q dbg kcmp borrow qcmp OL KB m fm H q e Hf.
  pose proof (rb_reached_rep K V Q dbg kcmp borrow qcmp m fm OL KB H) as Hr.
  pose proof Hr as (Hs & Hp & Hz & (h & Ht) & Hn). rewrite <- (rb_get_ok kcmp borrow qcmp OL KB m fm q Hr) in Hf.
  destruct (d_del_thrown dbg borrow qcmp q (rb_root m) h e true Ht Hf) as (a & l & r & b & t' & El & Ed & s & El' & Hsub & _).
  assert (Hfil : filter (fun x => negb (eq_of qcmp (borrow (fst x)) q)) (elems (rb_root m)) = a ++ (l ++ r) ++ b).
  { pose proof (unique_uniq (eq_of kcmp) borrow (eq_of qcmp) (kl_of kcmp borrow qcmp OL KB) _ q (sorted_unique kcmp _ Hs)) as Hu.
    assert (He : eq_of qcmp (borrow (fst e)) q = true).
    { rewrite (t_get_ok kcmp borrow qcmp OL KB q (rb_root m) Hs) in Hf. apply find_some in Hf as [_ Hf]. exact Hf. }
    assert (Ea : elems (rb_root m) = (a ++ l) ++ e :: r ++ b) by (rewrite El, <- !app_assoc; reflexivity).
    rewrite Ea in Hu |- *.
    rewrite (filter_mid _ (fun x => eq_of qcmp (borrow (fst x)) q) (a ++ l) e (r ++ b) He Hu). now rewrite <- !app_assoc. }
  assert (Hsq : subseq (elems t') (a ++ (l ++ r) ++ b)).
  { rewrite El'. apply subseq_app; [apply subseq_refl|]. apply subseq_app; [exact Hsub|apply subseq_refl]. }
  assert (Hst : sorted kcmp (elems t')).
  { apply (subseq_sorted _ _ _ _ Hsq). rewrite <- Hfil. now apply (sorted_filter kcmp). }
  destruct (subseq_lost _ _ _ Hsq) as (lost & Hl).
  exists (mkRB t' (rb_size m)), (elems t'), lost. cbn [d_rb_step]. unfold d_rb_remove_mut. rewrite Ed. cbn [fbind bind]. split; [reflexivity|].
  cbn [rb_size rb_root]. split; [exact Hz|]. split; [|split; [|split; [exact Hst|]]].
  - apply (rb_entries_stale kcmp (ord_k kcmp borrow qcmp OL KB)); cbn [rb_root rb_size]; [exact Hst|].
    apply Permutation_length in Hl. apply Permutation_length in Hp. rewrite app_length in Hl.
    rewrite El in Hp. rewrite !app_length in *. cbn [length] in *. lia.
  - rewrite Hl, <- Hfil. unfold fm_remove. now apply Permutation_filter.
  - intros q'. unfold rb_get_key_value. cbn [rb_root]. apply (t_get_ok kcmp borrow qcmp OL KB q' t' Hst).
Qed.
Print Assumptions C55_rb_remove.

(** Of a key that is not there nothing is dropped, and the call is an ordinary one. *)
Theorem C55_rb_remove_absent : forall (K V Q : Type) (dbg : bool) (kcmp : K -> K -> comparison) (borrow : K -> Q)
  (qcmp : Q -> Q -> comparison), ord_laws qcmp -> borrow_agrees kcmp borrow qcmp ->
  forall (m : rbmap K V) (fm : fmap K V), rb_reached dbg kcmp borrow qcmp m fm ->
  forall q, fm_find borrow (eq_of qcmp) q fm = None ->
  exists m', rb_remove_mut dbg borrow qcmp m q = Ok (m', false) /\
    d_rb_remove_mut dbg borrow qcmp true m q = Ok (Calm (m', false)).
Proof.
  intros K V Q dbg kcmp borrow qcmp OL KB m fm H q Hf.
  pose proof (rb_reached_rep K V Q dbg kcmp borrow qcmp m fm OL KB H) as Hr.
  destruct (rb_remove_ok dbg kcmp borrow qcmp OL KB m fm q Hr) as (m' & E & _). rewrite Hf in E. cbn [is_some] in E.
  exists m'. split; [exact E|]. rewrite <- (rb_get_ok kcmp borrow qcmp OL KB m fm q Hr) in Hf.
  unfold d_rb_remove_mut. rewrite (d_del_absent dbg borrow qcmp true q _ true Hf). unfold rb_remove_mut, n_remove in E.
  destruct (del dbg borrow qcmp (rb_root m) q true) as [[t' [|]]| |]; cbn [calmly bind fbind] in *; try discriminate.
  - destruct (csub (rb_size m) 1); discriminate.
  - injection E as <-. reflexivity.
Qed.
Print Assumptions C55_rb_remove_absent.

(** What is lost is a stretch of neighbours of the removed key: in key order, the entries before
    and after it stay, and within it at most four. *)
Theorem C55_rb_remove_block : forall (K V Q : Type) (dbg : bool) (kcmp : K -> K -> comparison) (borrow : K -> Q)
  (qcmp : Q -> Q -> comparison), ord_laws qcmp -> borrow_agrees kcmp borrow qcmp ->
  forall (m : rbmap K V) (fm : fmap K V), rb_reached dbg kcmp borrow qcmp m fm ->
  forall q e, fm_find borrow (eq_of qcmp) q fm = Some e ->
  exists m' before l r after kept, d_rb_remove_mut dbg borrow qcmp true m q = Ok (Thrown m') /\
    rb_entries kcmp m = Ok (before ++ (l ++ e :: r) ++ after) /\
    rb_entries kcmp m' = Ok (before ++ kept ++ after) /\
    subseq kept (l ++ r) /\ length kept <= 4.
Proof.
  intros K V Q dbg kcmp borrow qcmp OL KB m fm H q e Hf.
  pose proof (rb_reached_rep K V Q dbg kcmp borrow qcmp m fm OL KB H) as Hr.
  pose proof Hr as (Hs & Hp & Hz & (h & Ht) & Hn). rewrite <- (rb_get_ok kcmp borrow qcmp OL KB m fm q Hr) in Hf.
  destruct (d_del_thrown dbg borrow qcmp q (rb_root m) h e true Ht Hf) as (a & l & r & b & t' & El & Ed & s & El' & Hsub & Hle & _).
  assert (Hsq : subseq (elems t') (elems (rb_root m))).
  { rewrite El', El. apply subseq_app; [apply subseq_refl|]. apply subseq_app; [|apply subseq_refl].
    refine (subseq_trans _ _ _ _ _ Hsub). apply subseq_skip_mid. }
  pose proof (ord_k kcmp borrow qcmp OL KB) as OK. pose proof (Permutation_length Hp) as Hl.
  exists (mkRB t' (rb_size m)), a, l, r, b, s. unfold d_rb_remove_mut. rewrite Ed. cbn [fbind bind]. split; [reflexivity|].
  split; [rewrite <- El; apply (rb_entries_stale kcmp OK); [exact Hs|lia]|].
  split; [rewrite <- El'; apply (rb_entries_stale kcmp OK); cbn [rb_root rb_size]|split; assumption].
  - exact (subseq_sorted _ _ _ _ Hsq Hs).
  - rewrite Hz, <- Hl. now apply subseq_length.
Qed.
Print Assumptions C55_rb_remove_block.

(** The full claim -- only the entry asked for goes -- is false, and badly: every non-empty map,
    of any size, has a key, the root's, such that when the drop of its entry panics at most
    four entries are left, while the size stays what it was. *)
Theorem C55_rb_remove_root_refuted : forall (K V Q : Type) (dbg : bool) (kcmp : K -> K -> comparison) (borrow : K -> Q)
  (qcmp : Q -> Q -> comparison), ord_laws qcmp -> borrow_agrees kcmp borrow qcmp ->
  forall (m : rbmap K V) (fm : fmap K V), rb_reached dbg kcmp borrow qcmp m fm -> fm <> [] ->
  exists e m', In e fm /\ d_rb_remove_mut dbg borrow qcmp true m (borrow (fst e)) = Ok (Thrown m') /\
    rb_size m' = length fm /\ exists kept, rb_entries kcmp m' = Ok kept /\ length kept <= 4.
Proof.
  intros K V Q dbg kcmp borrow qcmp OL KB m fm H Hne.
  pose proof (rb_reached_rep K V Q dbg kcmp borrow qcmp m fm OL KB H) as Hr.
  pose proof Hr as (Hs & Hp & Hz & (h & Ht) & Hn).
  destruct (rb_root m) as [|e c l r] eqn:Er.
  { cbn in Hp. apply Permutation_nil in Hp. now destruct Hne. }
  assert (Hc : qcmp (borrow (fst e)) (borrow (fst e)) = Eq) by apply (cmp_refl qcmp OL).
  assert (Hg : t_get borrow qcmp (Tree e c l r) (borrow (fst e)) = Some e) by (cbn [t_get]; now rewrite Hc).
  destruct (d_del_thrown dbg borrow qcmp (borrow (fst e)) (Tree e c l r) h e true Ht Hg) as (a & l0 & r0 & b & t' & El & Ed & s & El' & Hsub & Hle & Hroot).
  destruct (Hroot Hc) as (-> & ->). exists e, (mkRB t' (rb_size m)). split.
  { apply (Permutation_in _ Hp). cbn [elems]. apply in_app_iff. right. now left. }
  unfold d_rb_remove_mut. rewrite Er, Ed. cbn [fbind bind rb_with rb_size rb_root]. split; [reflexivity|]. split; [exact Hz|].
  cbn [app] in El, El'. rewrite app_nil_r in El, El'. exists s. split; [|exact Hle]. rewrite <- El'.
  assert (Hsq : subseq (elems t') (elems (Tree e c l r))).
  { rewrite El', El. refine (subseq_trans _ _ _ _ _ Hsub). apply subseq_skip_mid. }
  apply (rb_entries_stale kcmp (ord_k kcmp borrow qcmp OL KB)); cbn [rb_root rb_size].
  - exact (subseq_sorted _ _ _ _ Hsq Hs).
  - rewrite Hz, <- (Permutation_length Hp). now apply subseq_length.
Qed.
Print Assumptions C55_rb_remove_root_refuted.

Definition exd_keys (l : list nat) : list (bool * map_op nat nat nat) := map (fun k => (false, MInsertMut k k)) l.
Definition exd_run (ops : list (bool * map_op nat nat nat)) : res (rbmap nat nat * list (option (map_obs nat nat))) :=
  d_exec (d_rb_step true Nat.compare (fun k => k) Nat.compare) ops rb_new.

(** With eight keys the removal of 3, interrupted, leaves two entries and size 8. *)
Example C55_rb_case : exists m m', rb_reached true Nat.compare (fun k => k) Nat.compare m (map (fun k => (k, k)) [7; 6; 5; 4; 3; 2; 1; 0]) /\
  d_rb_remove_mut true (fun k => k) Nat.compare true m 3 = Ok (Thrown m') /\ rb_size m' = 8 /\
  rb_entries Nat.compare m' = Ok [(2, 2); (4, 4)].
Proof.
  eexists _, _. split.
  - eexists (map (fun k => MInsertMut k k) (seq 0 8)), _. split; vm_compute; reflexivity.
  - split; [vm_compute; reflexivity|]. split; reflexivity.
Qed.

(** After that a call in which nothing is dropped with a panic may panic itself. *)
Theorem C55_rb_later_panic_refuted : exists m m' : rbmap nat nat,
  rb_reached true Nat.compare (fun k => k) Nat.compare m [(2, 2); (1, 1); (0, 0)] /\
  d_rb_remove_mut true (fun k => k) Nat.compare true m 0 = Ok (Thrown m') /\
  rb_remove_mut true (fun k => k) Nat.compare m' 2 = Panic.
Proof.
  eexists _, _. split.
  - eexists [MInsertMut 0 0; MInsertMut 1 1; MInsertMut 2 2], _. split; vm_compute; reflexivity.
  - split; vm_compute; reflexivity.
Qed.
Print Assumptions C55_rb_later_panic_refuted.

Example C55_rb_history_case : exists m,
  exd_run (exd_keys [3; 1; 2] ++ [(true, MInsertMut 1 7); (true, MInsertMut 4 4); (false, MGet 1); (false, MSize)])
    = Ok (m, [Some MoUnit; Some MoUnit; Some MoUnit; None; Some MoUnit; Some (MoVal (Some 7)); Some (MoNat 4)]).
Proof. eexists. vm_compute. reflexivity. Qed.

(** ** HashTrieMap *)

Section HashHelp.
Variable ubits : N.
Variable dbg : bool.
Variable b : N.
Hypothesis Hb : (0 < b)%N.
Hypothesis Hdeg : (2 ^ b <= ubits)%N.
Hypothesis Hub : (ubits <= 64)%N.
Context {K V Q : Type}.
Variable keq : K -> K -> bool.
Variable borrow : K -> Q.
Variable qeq : Q -> Q -> bool.
Variable hash : K -> N.
Variable qhash : Q -> N.
Hypothesis KL : key_laws keq borrow qeq.
Hypothesis HL : hash_laws borrow qeq hash qhash.
Variable fuel : nat.
Hypothesis Hfuel : 2 * D b < fuel.
Notation rep := (@hm_repg ubits b K V keq hash false).
Notation d_insert := (d_hm_insert_mut ubits dbg keq hash fuel).
Notation d_remove := (d_hm_remove_mut ubits dbg borrow qeq qhash fuel).
Notation insert := (hm_insert_mut ubits dbg keq hash fuel).
Notation remove := (hm_remove_mut ubits dbg borrow qeq qhash fuel).

Lemma hd_insert_calm : forall (m : hmap K V) k v, hm_degree m = (2 ^ b)%N -> d_insert false m k v = calmly (insert m k v).
Proof using.
  intros m k v E. unfold d_hm_insert_mut, hm_insert_mut. rewrite E, d_hn_insert_calm.
  destruct (hn_insert _ _ _ _ _ _ _ _) as [[n' new]| |]; reflexivity.
Qed.

Lemma hd_remove_calm : forall (m : hmap K V) q, hm_degree m = (2 ^ b)%N -> d_remove false m q = calmly (remove m q).
Proof using.
  intros m q E. unfold d_hm_remove_mut, hm_remove_mut. rewrite E, d_hn_remove_calm.
  destruct (hn_remove _ _ _ _ _ _ _ _ _ _) as [[n' [|]]| |]; cbn [calmly bind fbind]; try reflexivity.
  destruct (csub (hm_size m) 1); reflexivity.
Qed.

Lemma hd_insert_absent : forall m fm k v, rep m fm -> find (fun x => keq (fst x) k) fm = None ->
  d_insert true m k v = calmly (insert m k v).
Proof using Hb Hdeg Hub KL HL Hfuel.
  intros m fm k v (es & R & Hho & Hp & Hu & Hs & Hde) Hf.
  rewrite <- (rep_find_k ubits dbg b Hb Hdeg Hub keq borrow qeq hash qhash KL HL fuel Hfuel es fm k Hho Hp Hu) in Hf.
  assert (Hn : nomatch (matches_key keq k (hash k)) es).
  { apply (HashProofs.find_none (matches_key keq k (hash k))). destruct (find _ es); [discriminate|reflexivity]. }
  unfold d_hm_insert_mut, hm_insert_mut. rewrite Hde.
  rewrite (d_hn_insert_absent ubits dbg b Hb Hdeg Hub keq true (mkE k v (hash k)) fuel (D b) 0 (hm_root m) es R eq_refl Hn).
  destruct (hn_insert _ _ _ _ _ _ _ _) as [[n' new]| |]; reflexivity.
Qed.

Lemma hd_insert_present : forall m fm k v x, rep m fm -> find (fun x => keq (fst x) k) fm = Some x ->
  exists m', d_insert true m k v = Ok (Thrown m') /\
    (entries_with hash (hash k) fm <= 1 -> insert m k v = Ok m') /\
    (2 <= entries_with hash (hash k) fm -> hm_len m' = length fm /\
       exists l, hm_entries m' = Ok l /\ Permutation l (filter (fun x => negb (keq (fst x) k)) fm)).
Proof using Hb Hdeg Hub KL HL Hfuel.
  intros m fm k v x (es & R & Hho & Hp & Hu & Hs & Hde) Hf.
  rewrite <- (rep_find_k ubits dbg b Hb Hdeg Hub keq borrow qeq hash qhash KL HL fuel Hfuel es fm k Hho Hp Hu) in Hf.
  destruct (find (matches_key keq k (hash k)) es) as [y|] eqn:Ey; [|discriminate].
  assert (Hrange : forall e, In e es -> (e_hash e < 2 ^ 64)%N).
  { intros e He. rewrite (Hho e He), (hl_borrow _ _ _ _ HL). apply (hl_range _ _ _ _ HL). }
  assert (Hk : (hash k < 2 ^ 64)%N) by (rewrite (hl_borrow _ _ _ _ HL); apply (hl_range _ _ _ _ HL)).
  destruct (d_hn_insert_thrown ubits dbg b Hb Hdeg Hub keq (mkE k v (hash k)) y fuel (D b) 0 (hm_root m) es R eq_refl
    ltac:(lia) (rep_uniq_k ubits dbg b Hb Hdeg Hub keq borrow qeq hash qhash KL HL fuel Hfuel es fm k Hho Hp Hu) Ey (on_path_0 b _ es) Hrange Hk) as (n' & E & Ha & Hna).
  cbn [e_hash e_key] in *.
  assert (Hew : entries_with hash (hash k) fm = length (filter (@same_hash K V (hash k)) es))
    by exact (crowd_alone hash (hash k) es fm Hho Hp).
  exists (hm_with m n'). unfold d_hm_insert_mut, hm_insert_mut. rewrite Hde, E. cbn [fbind bind].
  split; [reflexivity|]. rewrite Hew. split.
  - intros Hle. rewrite (Ha Hle). unfold hm_with. now rewrite Hde.
  - intros Hge. unfold hm_len, hm_with. cbn [hm_size hm_root]. split; [exact Hs|]. 
    destruct Hna as (Hn' & Hli); [unfold alone, uniq; lia|]. assert (Hlen := Permutation_length Hp). rewrite map_length in Hlen.
    exists (map kv (n_entries n')). split.
    { apply hm_entries_stale; cbn [hm_root hm_size]; [exact Hli|]. rewrite Hn', Hs, <- Hlen. apply filter_len. }
    rewrite Hn', (filter_ext_in _ (fun e => negb (keq (fst (kv e)) k))).
    + rewrite <- (filter_map _ _ kv (fun x => negb (keq (fst x) k))). now apply Permutation_filter.
    + intros e He. f_equal. now apply (matches_k ubits dbg b Hb Hdeg Hub keq borrow qeq hash qhash KL HL fuel Hfuel es).
Qed.

Lemma hd_remove_absent : forall m fm q, rep m fm -> fm_find borrow qeq q fm = None ->
  d_remove true m q = calmly (remove m q).
Proof using Hb Hdeg Hub KL HL Hfuel.
  intros m fm q (es & R & Hho & Hp & Hu & Hs & Hde) Hf.
  rewrite <- (HashHist.rep_find ubits dbg b Hb Hdeg Hub keq borrow qeq hash qhash KL HL fuel Hfuel es fm q Hho Hp Hu) in Hf.
  assert (Hn : nomatch (matches borrow qeq q (qhash q)) es).
  { apply (HashProofs.find_none (matches borrow qeq q (qhash q))). destruct (find _ es); [discriminate|reflexivity]. }
  unfold d_hm_remove_mut, hm_remove_mut. rewrite Hde.
  rewrite (d_hn_remove_absent ubits dbg b Hb Hdeg Hub borrow qeq true q (qhash q) fuel (D b) 0 (hm_root m) es R eq_refl Hn).
  destruct (hn_remove _ _ _ _ _ _ _ _ _ _) as [[n' [|]]| |]; cbn [calmly bind fbind]; try reflexivity.
  destruct (csub (hm_size m) 1); reflexivity.
Qed.

Lemma hd_remove_present : forall m fm q x, rep m fm -> fm_find borrow qeq q fm = Some x ->
  exists m', d_remove true m q = Ok (Thrown m') /\ hm_len m' = length fm /\
    (exists l, hm_entries m' = Ok l /\ Permutation l (fm_remove borrow qeq q fm)) /\
    forall q', hm_get_key_value ubits dbg borrow qeq qhash fuel m' q' = Ok (fm_find borrow qeq q' (fm_remove borrow qeq q fm)) \/
      qhash q' = qhash q /\ entries_with hash (qhash q) fm = 1 /\ hm_get_key_value ubits dbg borrow qeq qhash fuel m' q' = Panic.
Proof using Hb Hdeg Hub KL HL Hfuel.
  intros m fm q x (es & R & Hho & Hp & Hu & Hs & Hde) Hf.
  rewrite <- (HashHist.rep_find ubits dbg b Hb Hdeg Hub keq borrow qeq hash qhash KL HL fuel Hfuel es fm q Hho Hp Hu) in Hf.
  destruct (find (matches borrow qeq q (qhash q)) es) as [y|] eqn:Ey; [|discriminate].
  destruct (d_hn_remove_thrown ubits dbg b Hb Hdeg Hub borrow qeq q (qhash q) y fuel (D b) 0 (hm_root m) es R eq_refl
    ltac:(lia) (rep_uniq_q ubits dbg b Hb Hdeg Hub keq borrow qeq hash qhash KL HL fuel Hfuel es fm q Hho Hp Hu) Ey (hl_range _ _ _ _ HL q)) as (n' & E & Hn & Hli & Hg).
  set (es' := filter (fun y => negb (matches borrow qeq q (qhash q) y)) es) in *.
  assert (Hp' : Permutation (map kv es') (fm_remove borrow qeq q fm)).
  { unfold es', fm_remove. rewrite (filter_ext_in _ (fun e => negb (qeq (borrow (fst (kv e))) q))).
    - rewrite <- (filter_map _ _ kv (fun x => negb (qeq (borrow (fst x)) q))). now apply Permutation_filter.
    - intros e He. f_equal. now apply (matches_q ubits dbg b Hb Hdeg Hub keq borrow qeq hash qhash KL HL fuel Hfuel es). }
  assert (Hho' : hash_ok hash es') by (intros e He; apply filter_In in He as [He _]; auto).
  assert (Hu' : unique_keys keq (fm_remove borrow qeq q fm)) by now apply FOP_filter.
  exists (hm_with m n'). unfold d_hm_remove_mut. rewrite Hde, E. cbn [fbind bind].
  split; [reflexivity|]. unfold hm_len, hm_with. cbn [hm_size hm_root]. split; [exact Hs|]. split.
  - exists (map kv (n_entries n')). split; [|rewrite Hn; exact Hp'].
    apply hm_entries_stale; cbn [hm_root hm_size]; [exact Hli|]. assert (Hlen := Permutation_length Hp). rewrite map_length in Hlen.
    rewrite Hn, Hs, <- Hlen. apply filter_len.
  - intros q'. unfold hm_get_key_value, hm_find, hm_with. cbn [hm_root hm_degree]. rewrite Hde.
    destruct (Hg q' (qhash q') fuel (hl_range _ _ _ _ HL q') ltac:(lia)) as [-> |(Eh & Hno & ->)].
    + change (N.of_nat 0) with 0%N. now rewrite N.mul_0_l, N.pow_0_r, !N.mod_1_r.
    + left. cbn [bind]. now rewrite <- (HashHist.rep_find ubits dbg b Hb Hdeg Hub keq borrow qeq hash qhash KL HL fuel Hfuel es' _ q' Hho' Hp' Hu').
    + right. split; [exact Eh|]. split; [|reflexivity].
      change (crowd hash (qhash q) fm = 1). rewrite (crowd_alone hash (qhash q) es fm Hho Hp).
      apply find_some in Ey as (Hin & Hm). apply in_split in Hin as (l1 & l2 & ->).
      pose proof (rep_uniq_q ubits dbg b Hb Hdeg Hub keq borrow qeq hash qhash KL HL fuel Hfuel _ fm q Hho Hp Hu) as Huq.
      assert (Hnd : forall z, In z (l1 ++ l2) -> same_hash (qhash q) z = false).
      { intros z Hz. apply Hno. unfold es'. now rewrite (filter_mid _ _ _ _ _ Hm Huq). }
      rewrite filter_app. cbn [filter].
      assert (Es : same_hash (qhash q) y = true).
      { unfold matches in Hm. apply andb_true_iff in Hm as [Hm _]. exact Hm. }
      rewrite Es, (filter_none _ _ l1), (filter_none _ _ l2); [reflexivity| |];
        intros z Hz; apply Hnd; apply in_app_iff; auto.
Qed.
End HashHelp.

(** [insert_mut] has done its work when it panics, if the key is new or no other key in the
    map has its hash. *)
Theorem C55_hash_insert : forall (K V Q : Type) (ubits : N) (dbg : bool)
  (keq : K -> K -> bool) (borrow : K -> Q) (qeq : Q -> Q -> bool) (hash : K -> N) (qhash : Q -> N),
  (ubits <= 64)%N -> key_laws keq borrow qeq -> hash_laws borrow qeq hash qhash ->
  forall (fuel : nat) (degree : N) (m : hmap K V) (fm : fmap K V),
  hm_reached ubits dbg keq borrow qeq hash qhash fuel degree m fm ->
  forall k v, find (fun x => keq (fst x) k) fm = None \/ entries_with hash (hash k) fm <= 1 ->
  exists m', hm_insert_mut ubits dbg keq hash fuel m k v = Ok m' /\
    d_hm_insert_mut ubits dbg keq hash fuel true m k v
      = Ok (if is_some (find (fun x => keq (fst x) k) fm) then Thrown m' else Calm m').
Proof.
  intros K V Q ubits dbg keq borrow qeq hash qhash Hub KL HL fuel degree m fm H k v Hc.
  destruct (reached_rep _ _ _ _ _ _ _ _ _ _ _ _ _ _ Hub KL HL H) as (b & Hb & -> & Hd & Hf & Hr).
  apply (hm_rep_weak K V Q ubits dbg b keq borrow qeq hash qhash m fm Hb Hd Hub KL HL) in Hr.
  destruct (hm_insert_ok (strict:=false) ubits dbg b Hb Hd Hub keq borrow qeq hash qhash KL HL fuel Hf m fm k v Hr) as (m' & E & _).
  exists m'. split; [exact E|]. destruct (find (fun x => keq (fst x) k) fm) as [x|] eqn:Ef; cbn [is_some].
  - destruct Hc as [Hc|Hc]; [discriminate|].
    destruct (hd_insert_present ubits dbg b Hb Hd Hub keq borrow qeq hash qhash KL HL fuel Hf m fm k v x Hr Ef) as (m1 & E1 & H1 & _).
    rewrite (H1 Hc) in E. injection E as <-. exact E1.
  - rewrite (hd_insert_absent ubits dbg b Hb Hd Hub keq borrow qeq hash qhash KL HL fuel Hf m fm k v Hr Ef), E. reflexivity.
Qed.
Print Assumptions C55_hash_insert.

(** Otherwise the full claim is false, always: the old entry is gone, the new one is not in,
    and the size does not tell. *)
Theorem C55_hash_insert_crowded_refuted : forall (K V Q : Type) (ubits : N) (dbg : bool)
  (keq : K -> K -> bool) (borrow : K -> Q) (qeq : Q -> Q -> bool) (hash : K -> N) (qhash : Q -> N),
  (ubits <= 64)%N -> key_laws keq borrow qeq -> hash_laws borrow qeq hash qhash ->
  forall (fuel : nat) (degree : N) (m : hmap K V) (fm : fmap K V),
  hm_reached ubits dbg keq borrow qeq hash qhash fuel degree m fm ->
  forall k v x, find (fun x => keq (fst x) k) fm = Some x -> 2 <= entries_with hash (hash k) fm ->
  exists m', d_hm_insert_mut ubits dbg keq hash fuel true m k v = Ok (Thrown m') /\
    hm_len m' = length fm /\
    exists l, hm_entries m' = Ok l /\ Permutation l (filter (fun x => negb (keq (fst x) k)) fm).
Proof.
  intros K V Q ubits dbg keq borrow qeq hash qhash Hub KL HL fuel degree m fm H k v x Ef Hc.
  destruct (reached_rep _ _ _ _ _ _ _ _ _ _ _ _ _ _ Hub KL HL H) as (b & Hb & -> & Hd & Hf & Hr).
  apply (hm_rep_weak K V Q ubits dbg b keq borrow qeq hash qhash m fm Hb Hd Hub KL HL) in Hr.
  destruct (hd_insert_present ubits dbg b Hb Hd Hub keq borrow qeq hash qhash KL HL fuel Hf m fm k v x Hr Ef) as (m1 & E1 & _ & H1).
  exists m1. split; [exact E1|]. exact (H1 Hc).
Qed.
Print Assumptions C55_hash_insert_crowded_refuted.

(** [remove_mut] of a key that is there, interrupted by the drop of its entry: only that entry
    is gone, but the size counts it still.  Lookups are right, with one exception: if no other
    entry had that hash, a lookup of a key with that hash may panic. *)
Theorem C55_hash_remove : forall (K V Q : Type) (ubits : N) (dbg : bool)
  (keq : K -> K -> bool) (borrow : K -> Q) (qeq : Q -> Q -> bool) (hash : K -> N) (qhash : Q -> N),
  (ubits <= 64)%N -> key_laws keq borrow qeq -> hash_laws borrow qeq hash qhash ->
  forall (fuel : nat) (degree : N) (m : hmap K V) (fm : fmap K V),
  hm_reached ubits dbg keq borrow qeq hash qhash fuel degree m fm ->
  forall q x, fm_find borrow qeq q fm = Some x ->
  exists m', d_hm_remove_mut ubits dbg borrow qeq qhash fuel true m q = Ok (Thrown m') /\
    hm_len m' = length fm /\
    (exists l, hm_entries m' = Ok l /\ Permutation l (fm_remove borrow qeq q fm)) /\
    forall q', hm_get_key_value ubits dbg borrow qeq qhash fuel m' q' = Ok (fm_find borrow qeq q' (fm_remove borrow qeq q fm)) \/
      qhash q' = qhash q /\ entries_with hash (qhash q) fm = 1 /\
      hm_get_key_value ubits dbg borrow qeq qhash fuel m' q' = Panic.
Proof.
  intros K V Q ubits dbg keq borrow qeq hash qhash Hub KL HL fuel degree m fm H q x Ef.
  destruct (reached_rep _ _ _ _ _ _ _ _ _ _ _ _ _ _ Hub KL HL H) as (b & Hb & -> & Hd & Hf & Hr).
  apply (hm_rep_weak K V Q ubits dbg b keq borrow qeq hash qhash m fm Hb Hd Hub KL HL) in Hr.
  exact (hd_remove_present ubits dbg b Hb Hd Hub keq borrow qeq hash qhash KL HL fuel Hf m fm q x Hr Ef).
Qed.
Print Assumptions C55_hash_remove.

Theorem C55_hash_remove_absent : forall (K V Q : Type) (ubits : N) (dbg : bool)
  (keq : K -> K -> bool) (borrow : K -> Q) (qeq : Q -> Q -> bool) (hash : K -> N) (qhash : Q -> N),
  (ubits <= 64)%N -> key_laws keq borrow qeq -> hash_laws borrow qeq hash qhash ->
  forall (fuel : nat) (degree : N) (m : hmap K V) (fm : fmap K V),
  hm_reached ubits dbg keq borrow qeq hash qhash fuel degree m fm ->
  forall q, fm_find borrow qeq q fm = None ->
  exists m', hm_remove_mut ubits dbg borrow qeq qhash fuel m q = Ok (m', false) /\
    d_hm_remove_mut ubits dbg borrow qeq qhash fuel true m q = Ok (Calm (m', false)).
Proof.
  intros K V Q ubits dbg keq borrow qeq hash qhash Hub KL HL fuel degree m fm H q Ef.
  destruct (reached_rep _ _ _ _ _ _ _ _ _ _ _ _ _ _ Hub KL HL H) as (b & Hb & -> & Hd & Hf & Hr).
  apply (hm_rep_weak K V Q ubits dbg b keq borrow qeq hash qhash m fm Hb Hd Hub KL HL) in Hr.
  destruct (hm_remove_ok (strict:=false) ubits dbg b Hb Hd Hub keq borrow qeq hash qhash KL HL fuel Hf m fm q Hr) as (m' & E & _).
  rewrite Ef in E. cbn [is_some] in E. exists m'. split; [exact E|].
  rewrite (hd_remove_absent ubits dbg b Hb Hd Hub keq borrow qeq hash qhash KL HL fuel Hf m fm q Hr Ef), E. reflexivity.
Qed.
Print Assumptions C55_hash_remove_absent.

Lemma alone_inj : forall (K V : Type) keq (hash : K -> N) (fm : fmap K V) h, unique_keys keq fm ->
  (forall a b, hash a = hash b -> keq a b = true) -> entries_with hash h fm <= 1.
Proof.
  intros K V keq hash fm h Hu Hinj. unfold entries_with. induction Hu as [|x fm Hx Hfm IH]; cbn [filter length]; [lia|].
  destruct (N.eqb_spec (hash (fst x)) h) as [Eh|]; [|exact IH]. cbn [length].
  rewrite (filter_none _ _ fm); [reflexivity|]. intros y Hy. destruct (N.eqb_spec (hash (fst y)) h) as [Ey|]; [|reflexivity].
  rewrite Forall_forall in Hx. specialize (Hx y Hy). rewrite (Hinj (fst x) (fst y)) in Hx by congruence. discriminate.
Qed.

(** Without collisions a history in which no removal is interrupted is an ordinary one. *)
Theorem C55_hash_history : forall (K V Q : Type) (ubits : N) (dbg : bool)
  (keq : K -> K -> bool) (borrow : K -> Q) (qeq : Q -> Q -> bool) (hash : K -> N) (qhash : Q -> N),
  (ubits <= 64)%N -> key_laws keq borrow qeq -> hash_laws borrow qeq hash qhash ->
  (forall a b, hash a = hash b -> keq a b = true) ->
  forall (degree : N) (fuel : nat), supported ubits degree -> 2 * digits degree < fuel ->
  forall ops : list (bool * map_op K V Q), (forall q, ~ In (true, MRemoveMut q) ops) ->
  exists m0 m outs, hm_new_with_degree ubits degree = Ok m0 /\
    d_exec (d_hm_step ubits dbg keq borrow qeq hash qhash fuel) ops m0 = Ok (m, outs) /\
    told ops outs (snd (exec_s (map_spec keq borrow qeq) (map snd ops) [])) /\
    hm_reached ubits dbg keq borrow qeq hash qhash fuel degree m (fst (exec_s (map_spec keq borrow qeq) (map snd ops) [])).
Proof.
  intros K V Q ubits dbg keq borrow qeq hash qhash Hub KL HL Hinj degree fuel Hsup Hf ops Hno.
  pose proof Hsup as (b & Hb & Ed & Hd). subst degree. pose proof Hf as Hf'. rewrite digits_D in Hf'.
  destruct (hash_history (strict:=false) ubits dbg b Hb Hd Hub keq borrow qeq hash qhash KL HL fuel Hf' (map snd ops))
    as (m0 & m & E0 & E & Hr).
  destruct (hm_new_ok (strict:=false) (V:=V) ubits dbg b Hb Hd Hub keq borrow qeq hash qhash KL HL fuel Hf') as (m0' & E0' & HR0).
  rewrite E0 in E0'. injection E0' as <-.
  assert (Hq : Forall (fun bo => fst bo = true -> forall q, snd bo <> MRemoveMut q) ops).
  { apply Forall_forall. intros [bo o] Hin Hbo q Ho. cbn [fst snd] in *. subst. now apply (Hno q). }
  set (P := fun m : hmap K V => exists fm, @hm_repg ubits b K V keq hash false m fm).
  assert (H0 : P m0) by (now exists []).
  edestruct (d_history _ _ _ (d_hm_step ubits dbg keq borrow qeq hash qhash fuel) (hm_step ubits dbg keq borrow qeq hash qhash fuel) P
    (fun b o => b = true -> forall q, o <> MRemoveMut q)) with (3 := H0) (4 := Hq) (5 := E) as (outs & Ed & Ht).
  - intros bo o m1 (fm1 & H1) Hbo.
    assert (Hde : hm_degree m1 = (2 ^ b)%N) by (destruct H1 as (es & _ & _ & _ & _ & _ & Hde); exact Hde).
    destruct o as [k v|k v|q|q|q f|q|q|q| | |]; cbn [d_hm_step]; try apply lands_calm; cbn [hm_step].
    + destruct bo.
      * destruct (find (fun x => keq (fst x) k) fm1) as [x|] eqn:Ef.
        -- destruct (hd_insert_present ubits dbg b Hb Hd Hub keq borrow qeq hash qhash KL HL fuel Hf' m1 fm1 k v x H1 Ef) as (m2 & -> & H2 & _).
           rewrite H2. 2:{ apply (alone_inj K V keq); [|exact Hinj]. destruct H1 as (es & _ & _ & _ & Hu & _). exact Hu. }
           right. now split.
        -- rewrite (hd_insert_absent ubits dbg b Hb Hd Hub keq borrow qeq hash qhash KL HL fuel Hf' m1 fm1 k v H1 Ef).
           left. destruct (hm_insert_mut ubits dbg keq hash fuel m1 k v); reflexivity.
      * rewrite (hd_insert_calm ubits dbg b keq hash fuel m1 k v Hde).
        left. destruct (hm_insert_mut ubits dbg keq hash fuel m1 k v); reflexivity.
    + destruct bo; [destruct (Hbo eq_refl q); reflexivity|]. rewrite (hd_remove_calm ubits dbg b borrow qeq qhash fuel m1 q Hde).
      left. destruct (hm_remove_mut ubits dbg borrow qeq qhash fuel m1 q) as [[? ?]| |]; reflexivity.
  - intros o m1 m2 x (fm1 & H1) E1.
    destruct (hm_step_ok (strict:=false) ubits dbg b Hb Hd Hub keq borrow qeq hash qhash KL HL fuel Hf' o m1 fm1 H1) as (m3 & E3 & H3).
    rewrite E1 in E3. injection E3 as -> _. unfold P. eauto.
  - exists m0, m, outs. split; [exact E0|]. split; [exact Ed|]. split; [exact Ht|].
    split; [exact Hsup|]. split; [exact Hf|]. exists m0, (map snd ops). eauto.
Qed.
Print Assumptions C55_hash_history.

Local Open Scope N_scope.
Definition exd_hash (f : N -> N) (ops : list (bool * map_op N N N)) : res (nat * list (option (map_obs N N)) * res (list (N * N))) :=
  let! m0 := hm_new_with_degree 64 64 in
  let! (m, outs) := d_exec (d_hm_step 64 true N.eqb (fun k => k) N.eqb f f 129) ops m0 in
  Ok (hm_len m, outs, hm_entries m).
Definition exd_two : list (bool * map_op N N N) := [(false, MInsertMut 1 10); (false, MInsertMut 2 20)].

(** Distinct hashes that part at the first digit: no harm but to the size. *)
Example C55_hash_case :
  exd_hash (fun k => k) (exd_two ++ [(true, MInsertMut 1 11); (true, MRemoveMut 1); (false, MGet 1); (false, MGet 2)])
  = Ok (2%nat, [Some MoUnit; Some MoUnit; None; None; Some (MoVal None); Some (MoVal (Some 20))], Ok [(2, 20)]).
Proof. vm_compute. reflexivity. Qed.

(** Equal hashes: the interrupted insertion loses the key. *)
Example C55_hash_crowded_case :
  exd_hash (fun _ => 0) (exd_two ++ [(true, MInsertMut 1 11); (false, MGet 1); (false, MGet 2)])
  = Ok (2%nat, [Some MoUnit; Some MoUnit; None; Some (MoVal None); Some (MoVal (Some 20))], Ok [(2, 20)]).
Proof. vm_compute. reflexivity. Qed.

(** The exception of [C55_hash_remove] occurs: hashes that part only at the last digit.  Lookup
    and insertion of the removed key panic, though no [Drop] does. *)
Definition exd_late (k : N) : N := k * 2 ^ 60.
Theorem C55_hash_later_panic_refuted : exists m m' : hmap N N,
  hm_reached 64 true N.eqb (fun k => k) N.eqb exd_late exd_late 129 64 m [(2, 20); (1, 10)] /\
  d_hm_remove_mut 64 true (fun k => k) N.eqb exd_late 129 true m 1 = Ok (Thrown m') /\
  hm_get 64 true (fun k => k) N.eqb exd_late 129 m' 1 = Panic /\
  hm_insert_mut 64 true N.eqb exd_late 129 m' 1 11 = Panic /\
  hm_get 64 true (fun k => k) N.eqb exd_late 129 m' 2 = Ok (Some 20).
Proof.
  eexists _, _. split; [split; [exists 6; repeat split; discriminate|split; [vm_compute; repeat constructor|]]|].
  - eexists _, (map snd exd_two), _. split; [vm_compute; reflexivity|]. split; [vm_compute; reflexivity|vm_compute; reflexivity].
  - split; [vm_compute; reflexivity|]. split; [vm_compute; reflexivity|]. split; vm_compute; reflexivity.
Qed.
Print Assumptions C55_hash_later_panic_refuted.

(** Two keys of one hash: the bucket is left with one entry but not turned back into a single
    one, and the removal of the other key hits the library's [unreachable!]. *)
Theorem C55_hash_bucket_panic_refuted : exists m m' : hmap N N,
  let h (k : N) := 0 in
  hm_reached 64 true N.eqb (fun k => k) N.eqb h h 129 64 m [(2, 20); (1, 10)] /\
  d_hm_remove_mut 64 true (fun k => k) N.eqb h 129 true m 1 = Ok (Thrown m') /\
  hm_remove_mut 64 true (fun k => k) N.eqb h 129 m' 2 = Panic.
Proof.
  eexists _, _. split.
  - split; [exists 6; repeat split; discriminate|]. split; [vm_compute; repeat constructor|].
    eexists _, (map snd exd_two), _. split; [vm_compute; reflexivity|]. split; [vm_compute; reflexivity|]. reflexivity.
  - split; [vm_compute; reflexivity|]. vm_compute. reflexivity.
Qed.
Print Assumptions C55_hash_bucket_panic_refuted.
