(** * The text of the derived [Debug] determines the whole state of a collection *)
From Coq Require Import String List NArith Arith Bool Lia.
From Verif Require Import Base SpecSerde ListModel VectorModel SparseModel HashModel HashExtra RBModel RBExtra DebugModel DebugProofs.
Import ListNotations.
Local Open Scope list_scope.

(** Texts of [f] can be told apart, also when more text follows. *)
Definition tells {X A} (f : A -> dcall X) : Prop :=
  forall a b r1 r2, written (f a) ++ r1 = written (f b) ++ r2 -> a = b /\ r1 = r2.
(** A text of [f] is not taken for the end of a list. *)
Definition opens {X A} (f : A -> dcall X) : Prop := forall a, exists p w, written (f a) = p :: w /\ p <> Str "]"%string.

Lemma tells_end : forall X A (f : A -> dcall X), tells f -> forall a b, written (f a) = written (f b) -> a = b.
Proof. intros X A f H a b E. apply (H a b [] []). now rewrite E. Qed.
Lemma cons_tail : forall A (x y : A) a b, x :: a = y :: b -> a = b.
Proof. congruence. Qed.

Section Tells.
Context {X : Type}.
Notation call := (dcall X).

Lemma tells_num : tells (d_num (X := X)).
Proof. intros a b r1 r2 E. cbn in E. inversion E. now split. Qed.
Lemma tells_user : forall A (u : A -> X), (forall a b, u a = u b -> a = b) -> tells (fun a => DOne (User (u a))).
Proof. intros A u H a b r1 r2 E. cbn in E. inversion E. split; auto. Qed.
Lemma opens_user : forall A (u : A -> X), opens (fun a => DOne (User (u a))).
Proof. intros A u a. eexists _, _. split; [reflexivity|discriminate]. Qed.

(** The items of a list, after the first *)
Lemma tells_items_at : forall A (f : A -> call), opens f -> forall l1,
  (forall a, In a l1 -> forall b r1 r2, written (f a) ++ r1 = written (f b) ++ r2 -> a = b /\ r1 = r2) ->
  forall l2 first r1 r2,
  let go := fix go (first : bool) l := match l with
     | [] => [Str "]"%string]
     | d :: l' => (if first : bool then [] else [Str ", "%string]) ++ written d ++ go false l'
     end in
  go first (map f l1) ++ r1 = go first (map f l2) ++ r2 -> l1 = l2 /\ r1 = r2.
Proof.
  intros A f Ho. induction l1 as [|a l1 IH]; intros H [|b l2] first r1 r2 go E.
  - cbn in E. apply cons_tail in E. now split.
  - exfalso. cbn [map go] in E. destruct first; [|discriminate E]. destruct (Ho b) as (p & w & Ew & Hp).
    cbn [app] in E. rewrite Ew in E. cbn in E. inversion E. congruence.
  - exfalso. cbn [map go] in E. destruct first; [|discriminate E]. destruct (Ho a) as (p & w & Ew & Hp).
    cbn [app] in E. rewrite Ew in E. cbn in E. inversion E. congruence.
  - cbn [map go] in E. fold go in E.
    assert (E' : written (f a) ++ go false (map f l1) ++ r1 = written (f b) ++ go false (map f l2) ++ r2).
    { destruct first; cbn [app] in E; [|apply cons_tail in E]; now rewrite <- !app_assoc in E. }
    destruct (H a (or_introl eq_refl) _ _ _ E') as (-> & E2).
    destruct (IH (fun x Hx => H x (or_intror Hx)) _ _ _ _ E2) as (-> & ->). now split.
Qed.
Lemma tells_seq_at : forall A (f : A -> call), opens f -> forall l1,
  (forall a, In a l1 -> forall b r1 r2, written (f a) ++ r1 = written (f b) ++ r2 -> a = b /\ r1 = r2) ->
  forall l2 r1 r2, written (DSeq (map f l1)) ++ r1 = written (DSeq (map f l2)) ++ r2 -> l1 = l2 /\ r1 = r2.
Proof. intros A f Ho l1 H l2 r1 r2 E. cbn [written app] in E. apply cons_tail in E. exact (tells_items_at A f Ho l1 H l2 true r1 r2 E). Qed.

(** Read off fixed text, then the next part. *)
Ltac flat E := repeat (rewrite <- ?app_assoc in E; cbn [app] in E).
Ltac skip E := flat E; repeat match type of E with Str ?s :: _ = Str ?s :: _ => apply cons_tail in E end.

Section Seq.
Context {T : Type}.
Variable td : T -> call.
Hypothesis Ht : tells td.

Lemma tells_chain : tells (debug_chain td).
Proof using Ht.
  intros a. induction a as [|v a IH]; intros [|w b] r1 r2 E; cbn [debug_chain d_some d_none d_unit written] in E; skip E; try discriminate E.
  - now split.
  - destruct (Ht _ _ _ _ E) as (-> & E2). skip E2. destruct (IH _ _ _ E2) as (-> & E3). skip E3. now split.
Qed.
Lemma tells_opt : tells (fun o => match o with Some v => d_some (td v) | None => d_none end).
Proof using Ht.
  intros [v|] [w|] r1 r2 E; cbn [d_some d_none d_unit written] in E; skip E; try discriminate E.
  - destruct (Ht _ _ _ _ E) as (-> & E2). skip E2. now split.
  - now split.
Qed.
Lemma tells_list : tells (debug_list td).
Proof using Ht.
  intros [h1 l1 n1] [h2 l2 n2] r1 r2 E. unfold debug_list in E. cbn [written l_head l_last l_length] in E. skip E.
  destruct (tells_chain _ _ _ _ E) as (-> & E2). skip E2. destruct (tells_opt _ _ _ _ E2) as (-> & E3). skip E3.
  destruct (tells_num (N.of_nat n1) (N.of_nat n2) _ _ E3) as (En & E4). skip E4. apply Nat2N.inj in En. subst. now split.
Qed.
Lemma tells_stack : tells (debug_stack td).
Proof using Ht.
  intros [l1] [l2] r1 r2 E. unfold debug_stack in E. cbn [written s_list] in E. skip E.
  destruct (tells_list _ _ _ _ E) as (-> & E2). skip E2. now split.
Qed.
Lemma tells_queue : tells (debug_queue td).
Proof using Ht.
  intros [i1 o1] [i2 o2] r1 r2 E. unfold debug_queue in E. cbn [written q_in q_out] in E. skip E.
  destruct (tells_list _ _ _ _ E) as (-> & E2). skip E2. destruct (tells_list _ _ _ _ E2) as (-> & E3). skip E3. now split.
Qed.

Hypothesis Ho : opens td.
Lemma opens_vnode : opens (debug_vnode td).
Proof. intros [a|a]; cbn [debug_vnode written]; eexists _, _; (split; [reflexivity|discriminate]). Qed.
Lemma tells_vnode : tells (debug_vnode td).
Proof using Ht Ho.
  unfold tells. fix IH 1. intros [a1|a1] [a2|a2] r1 r2 E; cbn [debug_vnode] in E.
  - change (Str "Branch"%string :: Str "("%string :: (written (DSeq (map (debug_vnode td) a1)) ++ [Str ")"%string]) ++ r1 =
            Str "Branch"%string :: Str "("%string :: (written (DSeq (map (debug_vnode td) a2)) ++ [Str ")"%string]) ++ r2) in E.
    do 2 apply cons_tail in E. rewrite <- !app_assoc in E.
    assert (Hall : forall a, In a a1 -> forall b r1 r2, written (debug_vnode td a) ++ r1 = written (debug_vnode td b) ++ r2 -> a = b /\ r1 = r2).
    { clear E. induction a1 as [|a a1 IHa]; [intros a []|]. intros x [<-|Hx]; [exact (IH a)|exact (IHa x Hx)]. }
    destruct (tells_seq_at _ _ opens_vnode _ Hall _ _ _ E) as (-> & E2). skip E2. now split.
  - discriminate E.
  - discriminate E.
  - change (Str "Leaf"%string :: Str "("%string :: (written (DSeq (map td a1)) ++ [Str ")"%string]) ++ r1 =
            Str "Leaf"%string :: Str "("%string :: (written (DSeq (map td a2)) ++ [Str ")"%string]) ++ r2) in E.
    do 2 apply cons_tail in E. rewrite <- !app_assoc in E.
    destruct (tells_seq_at _ _ Ho a1 (fun a _ => Ht a) _ _ _ E) as (-> & E2). skip E2. now split.
Qed.
Lemma tells_vector : tells (debug_vector td).
Proof using Ht Ho.
  intros [n1 b1 l1] [n2 b2 l2] r1 r2 E. unfold debug_vector in E. cbn [written v_root v_bits v_length] in E. skip E.
  destruct (tells_vnode _ _ _ _ E) as (-> & E2). skip E2. destruct (tells_num _ _ _ _ E2) as (-> & E3). skip E3.
  destruct (tells_num _ _ _ _ E3) as (-> & E4). skip E4. now split.
Qed.
End Seq.

Section Map.
Context {K V : Type}.
Variable kd : K -> call.
Variable vd : V -> call.
Hypothesis Hk : tells kd.
Hypothesis Hv : tells vd.

Lemma tells_entry : tells (debug_entry kd vd).
Proof using Hk Hv.
  intros [k1 v1] [k2 v2] r1 r2 E. unfold debug_entry in E. cbn [written fst snd] in E. skip E.
  destruct (Hk _ _ _ _ E) as (-> & E2). skip E2. destruct (Hv _ _ _ _ E2) as (-> & E3). skip E3. now split.
Qed.
Lemma tells_tree : tells (debug_tree kd vd).
Proof using Hk Hv.
  intros t1. induction t1 as [|e1 c1 l1 IHl r1 IHr]; intros [|e2 c2 l2 r2] s1 s2 E; cbn [debug_tree d_some d_none d_unit written] in E; skip E; try discriminate E.
  - now split.
  - destruct (tells_entry _ _ _ _ E) as (-> & E2). skip E2. unfold debug_color, d_unit in E2. cbn [written] in E2.
    assert (c1 = c2) as -> by (destruct c1, c2; skip E2; congruence). skip E2. destruct (IHl _ _ _ E2) as (-> & E3). skip E3.
    destruct (IHr _ _ _ E3) as (-> & E4). skip E4. now split.
Qed.
Lemma tells_rb : tells (debug_rb_map kd vd).
Proof using Hk Hv.
  intros [t1 n1] [t2 n2] r1 r2 E. unfold debug_rb_map in E. cbn [written rb_root rb_size] in E. skip E.
  destruct (tells_tree _ _ _ _ E) as (-> & E2). skip E2.
  destruct (tells_num (N.of_nat n1) (N.of_nat n2) _ _ E2) as (En & E3). skip E3. apply Nat2N.inj in En. subst. now split.
Qed.

Lemma tells_hentry : tells (debug_hentry kd vd).
Proof using Hk Hv.
  intros [k1 v1 h1] [k2 v2 h2] r1 r2 E. unfold debug_hentry in E. cbn [written e_key e_val e_hash] in E. skip E.
  destruct (tells_entry _ _ _ _ E) as (Ee & E2). skip E2. destruct (tells_num _ _ _ _ E2) as (-> & E3). skip E3.
  inversion Ee; subst. now split.
Qed.
Lemma tells_bucket : tells (debug_bucket kd vd).
Proof using Hk Hv.
  intros [e1|l1] [e2|l2] r1 r2 E; cbn [debug_bucket written] in E; skip E; try discriminate E.
  - destruct (tells_hentry _ _ _ _ E) as (-> & E2). skip E2. now split.
  - destruct (tells_list _ tells_hentry _ _ _ _ E) as (-> & E2). skip E2. now split.
Qed.
Lemma opens_hnode : opens (debug_hnode kd vd).
Proof. intros [a|a]; cbn [debug_hnode written]; eexists _, _; (split; [reflexivity|discriminate]). Qed.
Lemma tells_hnode : tells (debug_hnode kd vd).
Proof using Hk Hv.
  intros n. induction n as [s1 IH|b1] using hnode_ind2; intros [s2|b2] r1 r2 E; cbn [debug_hnode] in E; try discriminate E.
  - destruct s1 as [m1 a1], s2 as [m2 a2]. cbn [sa_bitmap sa_array] in *.
    remember (DSeq (map (debug_hnode kd vd) a1)) as q1 eqn:Q1. remember (DSeq (map (debug_hnode kd vd) a2)) as q2 eqn:Q2.
    cbn [written] in E. skip E. destruct (tells_num _ _ _ _ E) as (-> & E2). skip E2. subst q1 q2.
    rewrite Forall_forall in IH. destruct (tells_seq_at _ _ opens_hnode _ IH _ _ _ E2) as (-> & E3). skip E3. now split.
  - cbn [written] in E. skip E. destruct (tells_bucket _ _ _ _ E) as (-> & E2). skip E2. now split.
Qed.
Lemma tells_hash : forall hasher, tells (debug_hash_map kd vd hasher).
Proof using Hk Hv.
  intros hasher [n1 s1 d1] [n2 s2 d2] r1 r2 E. unfold debug_hash_map in E. cbn [written hm_root hm_size hm_degree] in E. skip E.
  destruct (tells_hnode _ _ _ _ E) as (-> & E2). skip E2.
  destruct (tells_num (N.of_nat s1) (N.of_nat s2) _ _ E2) as (En & E3). skip E3. apply Nat2N.inj in En.
  destruct (tells_num _ _ _ _ E3) as (-> & E4). skip E4. apply app_inv_head in E4. skip E4. subst. now split.
Qed.
End Map.

Lemma tells_void : tells (debug_void (X := X)).
Proof. intros [] [] r1 r2 E. cbn in E. apply cons_tail in E. now split. Qed.
Lemma tells_rb_set : forall T (td : T -> call), tells td -> tells (debug_rb_set td).
Proof.
  intros T td Ht m1 m2 r1 r2 E. unfold debug_rb_set in E. cbn [written] in E. skip E.
  destruct (tells_rb td debug_void Ht tells_void _ _ _ _ E) as (-> & E2). skip E2. now split.
Qed.
Lemma tells_hash_set : forall T (td : T -> call) hasher, tells td -> tells (debug_hash_set td hasher).
Proof.
  intros T td hasher Ht m1 m2 r1 r2 E. unfold debug_hash_set in E. cbn [written] in E. skip E.
  destruct (tells_hash td debug_void Ht tells_void hasher _ _ _ _ E) as (-> & E2). skip E2. now split.
Qed.
End Tells.
