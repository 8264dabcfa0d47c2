(** Property C64: what [{:?}] writes of a collection, and how deep the calls that write it nest. *)
From Coq Require Import String List NArith Arith Bool Lia Permutation.
From Verif Require Import Base Spec SpecMap SpecOrd SpecSerde Sim ListModel ListProofs VectorModel VectorProofs VectorOps VectorHist
  SparseModel HashModel HashProofs HashHist HashExtra HashExtraProofs Prop_Hash Prop_HashShape
  RBModel RBProofs RBHist RBIter RBExtra RBExtraProofs Prop_RB Prop_Traits DebugModel DebugProofs DebugText.
Import ListNotations.
Local Open Scope list_scope.

(** A part whose [Debug] is the user's. *)
Definition user {X} (x : X) : dcall X := DOne (User x).
(** The last element once more: the field [last] of a list. *)
Definition once_more {T} (s : list T) : list T := match last_error s with Some x => [x] | None => [] end.
(** What a call writes of the parts of the user's, in order. *)
Definition output {X} (d : dcall X) : list X := users (written d).

(** ** Every element is written, nothing else is

    The elements' own [Debug] may write anything ([t x]), also be that of another collection. *)
Theorem C64_sequence_debug : forall (X T : Type) (t : T -> dcall X),
  let elements := flat_map (fun x => output (t x)) in
  (forall l s, l_reached l s -> output (debug_list t l) = elements (s ++ once_more s)) /\
  (forall st s, s_reached st s -> output (debug_stack t st) = elements (s ++ once_more s)) /\
  (forall q s, q_reached q s -> exists i o, s = o ++ rev i /\
     output (debug_queue t q) = elements (i ++ once_more i ++ o ++ once_more o)) /\
  (forall ubits dbg bits v s, (8 <= ubits)%N -> (0 < bits < ubits)%N -> vec_reached ubits dbg bits v s ->
     output (debug_vector t v) = elements s).
Proof.
  intros X T t elements.
  assert (L : forall l s, l_rep l s -> shows (debug_list t l) = elements (s ++ once_more s)).
  { intros l s H. unfold shows. rewrite (part_list _ u_str t l s H). unfold elements. rewrite flat_map_app, app_nil_r. f_equal.
    unfold once_more. destruct (last_error s); cbn [opt flat_map]; [now rewrite app_nil_r|reflexivity]. }
  split; [|split; [|split]].
  - intros l s H. apply L. now apply l_reached_rep.
  - intros st s H. apply s_reached_rep in H. change (output (debug_stack t st)) with (shows (debug_stack t st)).
    unfold shows, debug_stack. rewrite part_struct by apply u_str. cbn [flat_map snd]. rewrite app_nil_r. now apply L.
  - intros q s H. apply q_reached_rep in H. destruct H as (i & o & Hi & Ho & ->). exists i, o. split; [reflexivity|].
    change (output (debug_queue t q)) with (shows (debug_queue t q)).
    unfold shows, debug_queue. rewrite part_struct by apply u_str. cbn [flat_map snd].
    change (shows (debug_list t (q_in q)) ++ shows (debug_list t (q_out q)) ++ [] = elements (i ++ once_more i ++ o ++ once_more o)).
    rewrite (L _ _ Hi), (L _ _ Ho), app_nil_r. unfold elements. rewrite <- flat_map_app. now rewrite <- app_assoc.
  - intros ubits dbg bits v s Hu [Hb Hbu] H. destruct (VectorHist.reached_rep ubits dbg bits Hu Hb Hbu v s H) as ((_ & _ & h & _ & Hr) & _).
    change (output (debug_vector t v)) with (shows (debug_vector t v)).
    unfold shows, debug_vector. rewrite part_struct by apply u_str. cbn [flat_map snd]. rewrite !part_num, !app_nil_r.
    apply (part_vnode _ u_str t bits h _ _ Hr).
Qed.
Print Assumptions C64_sequence_debug.

(** The entries of an ordered map are written once each, those of a set likewise. *)
Theorem C64_rb_debug : forall (X K V Q : Type) (dbg : bool)
  (kcmp : K -> K -> comparison) (borrow : K -> Q) (qcmp : Q -> Q -> comparison),
  ord_laws qcmp -> borrow_agrees kcmp borrow qcmp ->
  forall (kd : K -> dcall X) (vd : V -> dcall X),
  (forall m fm, rb_reached dbg kcmp borrow qcmp m fm -> exists l, Permutation l fm /\
     output (debug_rb_map kd vd m) = flat_map (fun e => output (kd (fst e)) ++ output (vd (snd e))) l) /\
  (forall m s, rs_reached dbg kcmp borrow qcmp m s -> exists l, Permutation l s /\
     output (debug_rb_set kd m) = flat_map (fun x => output (kd x)) l).
Proof.
  intros X K V Q dbg kcmp borrow qcmp OL KB kd vd. split.
  - intros m fm H. apply rb_reached_rep in H; auto. destruct H as (_ & Hp & _). exists (preorder (rb_root m)).
    split; [rewrite preorder_elems; exact Hp|]. change (output (debug_rb_map kd vd m)) with (shows (debug_rb_map kd vd m)).
    unfold shows, debug_rb_map. rewrite part_struct by apply u_str. cbn [flat_map snd]. rewrite part_num, !app_nil_r. apply (part_tree _ u_str kd vd).
  - intros m s H. apply rs_reached_rep in H; auto. destruct H as (_ & Hp & _). exists (map fst (preorder (rb_root m))).
    split.
    + rewrite preorder_elems, Hp, map_map. cbn [fst]. now rewrite map_id.
    + change (output (debug_rb_set kd m)) with (shows (debug_rb_set kd m)).
      unfold shows, debug_rb_set. rewrite part_struct by apply u_str. cbn [flat_map snd]. unfold debug_rb_map. rewrite part_struct by apply u_str.
      cbn [flat_map snd]. rewrite part_num, !app_nil_r. rewrite (part_tree _ u_str kd debug_void).
      induction (preorder (rb_root m)) as [|[x []] l IH]; cbn [flat_map map fst]; [reflexivity|]. rewrite IH. f_equal. unfold entry_part.
      cbn [fst snd]. apply app_nil_r.
Qed.
Print Assumptions C64_rb_debug.

(** Those of a hash map or set too, except that one entry of each group of keys with the same hash is
    written twice: the list of the group has it as [last] once more. *)
Lemma rep_doc : forall K V Q ubits (dbg : bool) b (keq : K -> K -> bool) (borrow : K -> Q) qeq hash qhash (m : hmap K V) fm,
  (0 < b)%N -> (2 ^ b <= ubits)%N -> (ubits <= 64)%N -> hash_laws borrow qeq hash qhash ->
  hm_rep ubits b keq hash m fm -> doc_inv b true 0 (hm_root m).
Proof.
  intros K V Q ubits dbg b keq borrow qeq hash qhash m fm Hb Hd Hub HL (es & R & Hh & _).
  apply (hrep_doc ubits dbg b Hb Hd Hub (D b) 0 (hm_root m) es true R eq_refl).
  - intros. cbn. now rewrite !N.mod_1_r.
  - intros e He. rewrite (Hh e He), (hl_borrow _ _ _ _ HL). apply (hl_range _ _ _ _ HL).
  - discriminate.
Qed.
Lemma rep_debug : forall X K V ubits b (keq : K -> K -> bool) hash (kd : K -> dcall X) (vd : V -> dcall X) (m : hmap K V) fm,
  hm_rep ubits b keq hash m fm -> doc_inv b true 0 (hm_root m) ->
  exists l again rest,
    output (debug_hnode kd vd (hm_root m)) = flat_map (fun e => output (kd (fst e)) ++ output (vd (snd e))) l /\
    Permutation l (fm ++ again) /\ Permutation fm (again ++ rest) /\
    (forall x, In x again -> exists y, In y rest /\ hash (fst y) = hash (fst x)).
Proof.
  intros X K V ubits b keq hash kd vd m fm (es & R & Oh & P & _) Hdoc.
  destruct (hrep_listed _ _ _ _ _ _ _ _ R Hdoc) as (again & rest & P1 & P2 & Ha).
  exists (map kv (listed (hm_root m))), (map kv again), (map kv rest). split; [|split; [|split]].
  - change (shows (debug_hnode kd vd (hm_root m)) = flat_map (shown_entry kd vd) (map kv (listed (hm_root m)))).
    rewrite shows_hnode. rewrite !flat_map_concat_map, map_map. reflexivity.
  - rewrite P1, map_app. now rewrite P.
  - rewrite <- P, P2. now rewrite map_app.
  - intros x Hx. apply in_map_iff in Hx as (e & <- & He). destruct (Ha e He) as (e' & He' & E). exists (kv e'). split; [now apply in_map|].
    cbn [kv fst]. rewrite <- (Oh e'), <- (Oh e); [exact E| |]; (eapply Permutation_in; [symmetry; exact P2|]); apply in_or_app; auto.
Qed.
Lemma hash_map_output : forall X K V (kd : K -> dcall X) (vd : V -> dcall X) hasher (m : hmap K V),
  output (debug_hash_map kd vd hasher m) = output (debug_hnode kd vd (hm_root m)) ++ output hasher.
Proof.
  intros. change (output (debug_hash_map kd vd hasher m)) with (shows (debug_hash_map kd vd hasher m)).
  unfold shows at 1, debug_hash_map. rewrite part_struct by apply u_str. cbn [flat_map snd]. rewrite !part_num, app_nil_r. reflexivity.
Qed.

Theorem C64_hash_debug : forall (X K V Q : Type) (ubits : N) (dbg : bool)
  (keq : K -> K -> bool) (borrow : K -> Q) (qeq : Q -> Q -> bool) (hash : K -> N) (qhash : Q -> N),
  (ubits <= 64)%N -> key_laws keq borrow qeq -> hash_laws borrow qeq hash qhash ->
  forall (kd : K -> dcall X) (vd : V -> dcall X) (hasher : dcall X) (fuel : nat) (degree : N),
  (forall (m : hmap K V) (fm : fmap K V), hm_reached ubits dbg keq borrow qeq hash qhash fuel degree m fm ->
   exists l again rest,
     output (debug_hash_map kd vd hasher m) = flat_map (fun e => output (kd (fst e)) ++ output (vd (snd e))) l ++ output hasher /\
     Permutation l (fm ++ again) /\ Permutation fm (again ++ rest) /\
     (forall x, In x again -> exists y, In y rest /\ hash (fst y) = hash (fst x))) /\
  (forall (m : hset K) (s : list K), hs_reached ubits dbg keq borrow qeq hash qhash fuel degree m s ->
   exists l again rest,
     output (debug_hash_set kd hasher m) = flat_map (fun x => output (kd x)) l ++ output hasher /\
     Permutation l (s ++ again) /\ Permutation s (again ++ rest) /\
     (forall x, In x again -> exists y, In y rest /\ hash y = hash x)).
Proof.
  intros X K V Q ubits dbg keq borrow qeq hash qhash Hub KL HL kd vd hasher fuel degree. split.
  - intros m fm H. destruct (Prop_Hash.reached_rep _ _ _ _ _ _ _ _ _ _ _ _ _ _ Hub KL HL H) as (b & Hb & -> & Hd & _ & Hr).
    pose proof (rep_doc _ _ _ ubits dbg b keq borrow qeq hash qhash m fm Hb Hd Hub HL Hr) as Hdoc.
    destruct (rep_debug X K V ubits b keq hash kd vd m fm Hr Hdoc) as (l & again & rest & E & H'). exists l, again, rest.
    split; [|exact H']. now rewrite hash_map_output, E.
  - intros m s H. destruct (hs_reached_rep _ _ _ _ _ _ _ _ _ _ _ _ _ Hub KL HL H) as (b & Hb & -> & Hd & _ & Hr).
    pose proof (rep_doc _ _ _ ubits dbg b keq borrow qeq hash qhash m _ Hb Hd Hub HL Hr) as Hdoc.
    destruct (rep_debug X K unit ubits b keq hash kd debug_void m _ Hr Hdoc) as (l & again & rest & E & P1 & P2 & Ha).
    assert (Ms : map fst (map HashExtraProofs.ut s) = s) by (rewrite map_map; apply map_id).
    exists (map fst l), (map fst again), (map fst rest). split; [|split; [|split]].
    + assert (Eo : output (debug_hash_set kd hasher m) = output (debug_hash_map kd debug_void hasher m)).
      { change (shows (debug_hash_set kd hasher m) = shows (debug_hash_map kd debug_void hasher m)). unfold shows, debug_hash_set.
        rewrite part_struct by apply u_str. cbn [flat_map snd]. apply app_nil_r. }
      rewrite Eo, hash_map_output, E. f_equal. clear. induction l as [|[x []] l IH]; cbn [flat_map map fst]; [reflexivity|].
      rewrite IH. f_equal. apply app_nil_r.
    + rewrite P1, map_app, Ms. reflexivity.
    + rewrite <- Ms at 1. rewrite P2, map_app. reflexivity.
    + intros x Hx. apply in_map_iff in Hx as ([x' []] & <- & Hx). destruct (Ha _ Hx) as (y & Hy & Eh). exists (fst y). split; [now apply in_map|exact Eh].
Qed.
Print Assumptions C64_hash_debug.

(** ** The text and the contents

    For List and Vector the text says the same as the contents: equal collections have the same text and
    different ones have different texts (as sequences of pieces: what the [Debug] of the elements writes
    is taken to be one piece each).  A queue's text determines its contents. *)
Lemma once_more_inj : forall T (s s' : list T), s ++ once_more s = s' ++ once_more s' -> s = s'.
Proof.
  intros T s s' E. assert (F : forall s : list T, s = removelast (s ++ once_more s)).
  { intros u. unfold once_more. destruct (last_error u) eqn:El.
    - now rewrite removelast_last.
    - destruct u as [|x u]; [reflexivity|]. destruct (last_split _ (x :: u)) as (i & y & _ & El'); [discriminate|congruence]. }
  rewrite (F s), (F s'), E. reflexivity.
Qed.
Lemma app_inj_len : forall T (a b c d : list T), length a = length c -> a ++ b = c ++ d -> a = c /\ b = d.
Proof.
  intros T a b. induction a as [|x a IH]; intros [|y c] d L E; try discriminate; [auto|].
  injection L as L. injection E as -> E. destruct (IH c d L E). subst. auto.
Qed.
Lemma flat_one : forall X (s : list X), flat_map (fun x => output (user x)) s = s.
Proof. intros X s. induction s as [|x s IH]; [reflexivity|]. cbn [flat_map]. rewrite IH. reflexivity. Qed.

Theorem C64_sequence_text : forall (T : Type),
  (forall (l1 l2 : rlist T) s1 s2, l_reached l1 s1 -> l_reached l2 s2 ->
     (written (debug_list user l1) = written (debug_list user l2) <-> s1 = s2)) /\
  (forall (l1 l2 : rstack T) s1 s2, s_reached l1 s1 -> s_reached l2 s2 ->
     (written (debug_stack user l1) = written (debug_stack user l2) <-> s1 = s2)) /\
  (forall (q1 q2 : rqueue T) s1 s2, q_reached q1 s1 -> q_reached q2 s2 ->
     written (debug_queue user q1) = written (debug_queue user q2) -> s1 = s2) /\
  (forall ubits dbg bits (v1 v2 : rvec T) s1 s2, (8 <= ubits)%N -> (0 < bits < ubits)%N ->
     vec_reached ubits dbg bits v1 s1 -> vec_reached ubits dbg bits v2 s2 ->
     (written (debug_vector user v1) = written (debug_vector user v2) <-> s1 = s2)).
Proof.
  intros T. destruct (C64_sequence_debug T T user) as (DL & DS & _ & DV).
  assert (LE : forall (l1 l2 : rlist T) s, l_rep l1 s -> l_rep l2 s -> l1 = l2).
  { intros [h1 a1 n1] [h2 a2 n2] s (E1 & E2 & E3) (F1 & F2 & F3). cbn in *. congruence. }
  split; [|split; [|split]].
  - intros l1 l2 s1 s2 H1 H2. split.
    + intros E. apply once_more_inj. rewrite <- (flat_one _ (s1 ++ _)), <- (flat_one _ (s2 ++ _)).
      rewrite <- (DL _ _ H1), <- (DL _ _ H2). unfold output. now rewrite E.
    + intros ->. f_equal. f_equal. apply l_reached_rep in H1, H2. now apply (LE _ _ s2).
  - intros [l1] [l2] s1 s2 H1 H2. split.
    + intros E. apply once_more_inj. rewrite <- (flat_one _ (s1 ++ _)), <- (flat_one _ (s2 ++ _)).
      rewrite <- (DS _ _ H1), <- (DS _ _ H2). unfold output. now rewrite E.
    + intros ->. f_equal. f_equal. f_equal. apply s_reached_rep in H1, H2. now apply (LE _ _ s2).
  - intros q1 q2 s1 s2 H1 H2 E. apply q_reached_rep in H1, H2. destruct H1 as (i1 & o1 & I1 & O1 & ->), H2 as (i2 & o2 & I2 & O2 & ->).
    assert (NQ : forall (q : rqueue T) i o, l_rep (q_in q) i -> l_rep (q_out q) o ->
      numbers (written (debug_queue user q)) = [N.of_nat (length i); N.of_nat (length o)]).
    { intros q i o Hi Ho. set (f := fun p : piece T => match p with Num n => [n] | _ => [] end).
      change (part f (debug_queue user q) = [N.of_nat (length i); N.of_nat (length o)]).
      assert (Hf : forall s, f (Str s) = []) by reflexivity. unfold debug_queue. rewrite part_struct by exact Hf. cbn [flat_map snd].
      rewrite (part_list f Hf user _ _ Hi), (part_list f Hf user _ _ Ho), app_nil_r.
      assert (Z : forall s : list T, flat_map (fun x => part f (user x)) s = []) by (intros s; induction s as [|x s IH]; [reflexivity|exact IH]).
      assert (Z' : forall s : option T, opt (fun x => part f (user x)) s = []) by (intros [x|]; reflexivity).
      rewrite !Z, !Z'. reflexivity. }
    assert (SQ : forall (q : rqueue T) i o, l_rep (q_in q) i -> l_rep (q_out q) o ->
      output (debug_queue user q) = (i ++ once_more i) ++ (o ++ once_more o)).
    { intros q i o Hi Ho. change (output (debug_queue user q)) with (shows (debug_queue (@user T) q)).
      unfold shows, debug_queue. rewrite part_struct by apply u_str. cbn [flat_map snd].
      rewrite (part_list _ u_str user _ _ Hi), (part_list _ u_str user _ _ Ho), !app_nil_r.
      assert (Z : forall s : list T, flat_map (fun x => shows (user x)) s = s) by apply flat_one. unfold shows in Z. rewrite !Z.
      assert (Z' : forall s : list T, opt (fun x => shows (user x)) (last_error s) = once_more s) by (intros s; unfold once_more; now destruct (last_error s)).
      unfold shows in Z'. rewrite !Z'. reflexivity. }
    pose proof (NQ _ _ _ I1 O1) as N1. rewrite E, (NQ _ _ _ I2 O2) in N1. injection N1 as Ni No.
    pose proof (SQ _ _ _ I1 O1) as S1. unfold output in S1. rewrite E in S1. fold (output (debug_queue user q2)) in S1. rewrite (SQ _ _ _ I2 O2) in S1.
    assert (Li : forall s : list T, length (once_more s) = match length s with 0 => 0 | _ => 1 end).
    { intros s. unfold once_more. destruct s as [|x s]; [reflexivity|]. destruct (last_split _ (x :: s)) as (j & y & _ & ->); [discriminate|reflexivity]. }
    assert (Ei : i2 ++ once_more i2 = i1 ++ once_more i1 /\ o2 ++ once_more o2 = o1 ++ once_more o1).
    { apply app_inj_len; [|exact S1]. rewrite !app_length, !Li. apply Nat2N.inj in Ni. now rewrite Ni. }
    destruct Ei as [Ei Eo]. apply once_more_inj in Ei, Eo. now subst.
  - intros ubits dbg bits v1 v2 s1 s2 Hu Hb H1 H2. split.
    + intros E. rewrite <- (flat_one _ s1), <- (flat_one _ s2). rewrite <- (DV _ _ _ _ _ Hu Hb H1), <- (DV _ _ _ _ _ Hu Hb H2). unfold output. now rewrite E.
    + intros ->. f_equal. f_equal. destruct Hb as [Hb Hbu].
      destruct (VectorHist.reached_rep ubits dbg bits Hu Hb Hbu v1 s2 H1) as ((A1 & B1 & h1 & C1 & D1) & _).
      destruct (VectorHist.reached_rep ubits dbg bits Hu Hb Hbu v2 s2 H2) as ((A2 & B2 & h2 & C2 & D2) & _).
      pose proof (hspec_unique ubits dbg bits Hu Hb Hbu _ _ _ C1 C2) as Eh. apply Nat2N.inj in Eh. subst h2.
      destruct v1, v2. cbn in *. rewrite A1, A2, B1, B2. f_equal. now apply (DebugProofs.rep_unique bits h1 _ _ s2).
Qed.
Print Assumptions C64_sequence_text.

(** Tries that agree but for the order in collision buckets are equal if there are none. *)
Lemma same_trie_eq : forall K V b root d (n1 n2 : hnode K V), same_trie n1 n2 -> doc_inv b root d n1 ->
  (forall e e', In e (n_entries n1) -> In e' (n_entries n1) -> e_hash e = e_hash e' -> e = e') -> NoDup (n_entries n1) -> n1 = n2.
Proof.
  intros K V b. fix IH 5. intros root d n1 n2 H. destruct H as [[bm1 a1] [bm2 a2] Eb H|e|l1 l2 Hp _]; intros Hi Hu Hn.
  - inversion Hi as [| |? ? ? _ _ Hc]; subst. cbn [n_entries sa_bitmap sa_array] in *. subst bm2. f_equal. f_equal. clear Hi. revert Hc Hu Hn.
    induction H as [|c1 c2 a1 a2 Hs Ha IHa]; intros Hc Hu Hn; [reflexivity|].
    cbn [map concat] in *. f_equal.
    + apply (IH false (S d) c1 c2 Hs).
      * apply Hc. now left.
      * intros e e' He He'. apply Hu; apply in_app_iff; now left.
      * eapply nodup_l; eauto.
    + apply IHa.
      * intros c Hx. apply Hc. now right.
      * intros e e' He He'. apply Hu; apply in_app_iff; now right.
      * eapply nodup_r; eauto.
  - reflexivity.
  - exfalso. inversion Hi as [|? ? ? _ Hlen Heq|]; subst. cbn [n_entries] in *.
    destruct (l_head l1) as [|e [|e' l]]; cbn [length] in Hlen; try lia.
    assert (e = e') by (apply Hu; cbn [In]; auto; apply Heq; cbn [In]; auto). subst e'.
    inversion Hn as [|? ? Hx _]. apply Hx. now left.
Qed.

(** The text of a map determines its contents; here the pieces of keys and of values are told apart. *)
Definition key_call {K V} (k : K) : dcall (K + V) := user (Datatypes.inl k).
Definition val_call {K V} (v : V) : dcall (K + V) := user (Datatypes.inr v).
Lemma pairs_inj : forall K V (l l' : list (K * V)),
  flat_map (fun e => output (key_call (fst e)) ++ output (val_call (snd e))) l =
  flat_map (fun e => output (@key_call K V (fst e)) ++ output (val_call (snd e))) l' -> l = l'.
Proof.
  intros K V l. induction l as [|[k v] l IH]; intros [|[k' v'] l'] E; try discriminate; [reflexivity|].
  cbn [flat_map fst snd] in E. injection E as -> -> E. f_equal. now apply IH.
Qed.
Lemma unique_nodup : forall K V Q (keq : K -> K -> bool) (borrow : K -> Q) qeq (f : fmap K V), key_laws keq borrow qeq -> unique_keys keq f -> NoDup f.
Proof.
  intros K V Q keq borrow qeq f KL U. induction U as [|x f Hx U IH]; constructor; [|exact IH]. intros Hin.
  rewrite Forall_forall in Hx. specialize (Hx x Hin). rewrite (kl_borrow _ _ _ KL), (kl_refl _ _ _ KL) in Hx. discriminate.
Qed.

Theorem C64_rb_text : forall (K V Q : Type) (dbg : bool)
  (kcmp : K -> K -> comparison) (borrow : K -> Q) (qcmp : Q -> Q -> comparison),
  ord_laws qcmp -> borrow_agrees kcmp borrow qcmp ->
  forall (m1 m2 : rbmap K V) f1 f2, rb_reached dbg kcmp borrow qcmp m1 f1 -> rb_reached dbg kcmp borrow qcmp m2 f2 ->
  written (debug_rb_map key_call val_call m1) = written (debug_rb_map key_call val_call m2) -> Permutation f1 f2.
Proof.
  intros K V Q dbg kcmp borrow qcmp OL KB m1 m2 f1 f2 H1 H2 E.
  destruct (C64_rb_debug (K + V) K V Q dbg kcmp borrow qcmp OL KB key_call val_call) as (D & _).
  destruct (D _ _ H1) as (l1 & P1 & E1), (D _ _ H2) as (l2 & P2 & E2). unfold output at 1 in E1. unfold output at 1 in E2. rewrite E, E2 in E1.
  apply pairs_inj in E1. subst l2. rewrite <- P1. exact P2.
Qed.
Print Assumptions C64_rb_text.

(** Without two keys of the same hash the text of a hash map also follows from the contents, unless there
    is just one entry (the root may then be a leaf or a branch). *)
Theorem C64_hash_text : forall (K V Q : Type) (ubits : N) (dbg : bool)
  (keq : K -> K -> bool) (borrow : K -> Q) (qeq : Q -> Q -> bool) (hash : K -> N) (qhash : Q -> N),
  (ubits <= 64)%N -> key_laws keq borrow qeq -> hash_laws borrow qeq hash qhash ->
  forall (hasher : dcall (K + V)) (fuel1 fuel2 : nat) (degree : N) (m1 m2 : hmap K V) (f1 f2 : fmap K V),
  hm_reached ubits dbg keq borrow qeq hash qhash fuel1 degree m1 f1 ->
  hm_reached ubits dbg keq borrow qeq hash qhash fuel2 degree m2 f2 ->
  (written (debug_hash_map key_call val_call hasher m1) = written (debug_hash_map key_call val_call hasher m2) -> Permutation f1 f2) /\
  (Permutation f1 f2 -> length f1 <> 1 -> (forall x y, In x f1 -> In y f1 -> hash (fst x) = hash (fst y) -> x = y) ->
   written (debug_hash_map key_call val_call hasher m1) = written (debug_hash_map key_call val_call hasher m2)).
Proof.
  intros K V Q ubits dbg keq borrow qeq hash qhash Hub KL HL hasher fuel1 fuel2 degree m1 m2 f1 f2 H1 H2. split.
  - intros E. pose proof (C64_hash_debug (K + V) K V Q ubits dbg keq borrow qeq hash qhash Hub KL HL key_call val_call hasher) as D.
    destruct (proj1 (D _ _) _ _ H1) as (l1 & a1 & r1 & E1 & P1 & Q1 & _), (proj1 (D _ _) _ _ H2) as (l2 & a2 & r2 & E2 & P2 & Q2 & _).
    unfold output at 1 in E1. unfold output at 1 in E2. rewrite E, E2 in E1. apply app_inv_tail in E1. apply pairs_inj in E1. subst l2.
    destruct (C12_hash_map_index K V Q ubits dbg keq borrow qeq hash qhash Hub KL HL _ _ _ _ H1) as (U1 & _).
    destruct (C12_hash_map_index K V Q ubits dbg keq borrow qeq hash qhash Hub KL HL _ _ _ _ H2) as (U2 & _).
    apply (unique_nodup K V Q keq borrow qeq _ KL) in U1, U2.
    assert (I : forall l f a r (x : K * V), Permutation l (f ++ a) -> Permutation f (a ++ r) -> (In x f <-> In x l)).
    { intros l f a r x Pl Pf. split; intros Hx.
      - eapply Permutation_in; [symmetry; exact Pl|]. apply in_or_app. now left.
      - apply (Permutation_in _ Pl) in Hx. apply in_app_or in Hx as [Hx|Hx]; [exact Hx|].
        eapply Permutation_in; [symmetry; exact Pf|]. apply in_or_app. now left. }
    apply NoDup_Permutation; auto. intros x. rewrite (I _ _ _ _ x P1 Q1). symmetry. apply (I _ _ _ _ x P2 Q2).
  - intros Hp Hl Hinj.
    pose proof (C14_hash_map_invariants K V Q ubits dbg keq borrow qeq hash qhash Hub KL HL fuel1 degree m1 f1 H1) as (Hdoc & _).
    pose proof (C46_hash_map_canonical K V Q ubits dbg keq borrow qeq hash qhash Hub KL HL fuel1 fuel2 degree m1 m2 f1 f2 H1 H2 Hp Hl) as Hs.
    destruct (Prop_Hash.reached_rep _ _ _ _ _ _ _ _ _ _ _ _ _ _ Hub KL HL H1) as (b & Hb & -> & Hd & _ & (es1 & R1 & O1 & P1 & U1 & Z1 & G1)).
    destruct (Prop_Hash.reached_rep _ _ _ _ _ _ _ _ _ _ _ _ _ _ Hub KL HL H2) as (b2 & _ & Eb & _ & _ & (es2 & _ & _ & _ & _ & Z2 & G2)).
    rewrite N.log2_pow2 in Hdoc by lia.
    assert (En : hm_root m1 = hm_root m2).
    { apply (same_trie_eq _ _ _ _ _ _ _ Hs Hdoc); rewrite <- (hrep_entries ubits b _ _ _ _ R1).
      - intros e e' He He' Eh. assert (Ek : kv e = kv e').
        { apply Hinj; [eapply Permutation_in; [exact P1|now apply in_map]..|]. cbn [kv fst]. rewrite <- (O1 e He), <- (O1 e' He'). exact Eh. }
        destruct e as [k v h], e' as [k' v' h']. cbn [e_hash] in Eh. unfold kv in Ek. cbn [e_key e_val] in Ek. congruence.
      - apply (NoDup_map_inv kv). eapply Permutation_NoDup; [symmetry; exact P1|]. exact (unique_nodup K V Q keq borrow qeq _ KL U1). }
    f_equal. f_equal. destruct m1 as [n1 z1 g1], m2 as [n2 z2 g2]. cbn in *. rewrite Z1, Z2, (Permutation_length Hp). congruence.
Qed.
Print Assumptions C64_hash_text.

(** Equal queues, ordered maps and hash maps may have different texts: the text shows how the contents
    are stored. *)
Theorem C64_equal_text_refuted :
  (exists (q1 q2 : rqueue nat) s, q_reached q1 s /\ q_reached q2 s /\
     written (debug_queue user q1) <> written (debug_queue user q2)) /\
  (exists (m1 m2 : rbmap nat nat) f1 f2, rb_reached true Nat.compare (fun x => x) Nat.compare m1 f1 /\
     rb_reached true Nat.compare (fun x => x) Nat.compare m2 f2 /\ Permutation f1 f2 /\
     written (debug_rb_map user user m1) <> written (debug_rb_map user user m2)) /\
  (exists (m1 m2 : hmap N N) f1 f2, hm_reached 64 true N.eqb (fun x => x) N.eqb (fun x => x) (fun x => x) 129 4 m1 f1 /\
     hm_reached 64 true N.eqb (fun x => x) N.eqb (fun x => x) (fun x => x) 129 4 m2 f2 /\ Permutation f1 f2 /\
     written (debug_hash_map user user (user 0%N) m1) <> written (debug_hash_map user user (user 0%N) m2)).
Proof.
  split; [|split].
  - eexists _, _, [2]. split; [|split].
    + exists [QEnq 2]. eexists. split; reflexivity.
    + exists [QEnq 1; QEnq 2; QDeq]. eexists. split; reflexivity.
    + vm_compute. discriminate.
  - eexists _, _, _, _. split; [|split; [|split]].
    + exists [MInsert 1 0; MInsert 2 0]. eexists. split; vm_compute; reflexivity.
    + exists [MInsert 2 0; MInsert 1 0]. eexists. split; vm_compute; reflexivity.
    + apply perm_swap.
    + vm_compute. discriminate.
  - eexists _, _, _, _. split; [|split; [|split]].
    + split; [exists 2%N; repeat split; discriminate|]. split; [vm_compute; repeat constructor|].
      eexists _, [MInsert 1%N 10%N], _. split; [reflexivity|]. split; [vm_compute; reflexivity|reflexivity].
    + split; [exists 2%N; repeat split; discriminate|]. split; [vm_compute; repeat constructor|].
      eexists _, [MInsert 2%N 20%N; MInsert 1%N 10%N; MRemove 2%N], _. split; [reflexivity|]. split; [vm_compute; reflexivity|reflexivity].
    + reflexivity.
    + vm_compute. discriminate.
Qed.
Print Assumptions C64_equal_text_refuted.

(** ** Sinks that fail

    Whatever the sink and the elements' [Debug] do with a piece, the pieces are passed on in order, up to
    and including the first that fails. *)
Theorem C64_stops_at_error : forall (X W : Type) (emit : piece X -> action W) (d : dcall X) (w : W),
  fmt_into emit d w = until_error (map emit (written d)) w.
Proof. intros. apply fmt_into_ok. Qed.
Print Assumptions C64_stops_at_error.

(** ** How deep the calls nest

    Two nested calls for each element of a List or Stack: writing a long one needs a deep stack, though
    dropping it does not (C39).  A Queue has one of at least half the depth. *)
Theorem C64_list_nesting : forall (T : Type),
  (forall (l : rlist T) s, l_reached l s -> nesting (debug_list user l) = 2 * length s + 2) /\
  (forall (st : rstack T) s, s_reached st s -> nesting (debug_stack user st) = 2 * length s + 3) /\
  (forall (q : rqueue T) s, q_reached q s -> length s + 3 <= nesting (debug_queue user q) <= 2 * length s + 3).
Proof.
  intros T. assert (L : forall (l : rlist T) s, l_rep l s -> nesting (debug_list user l) = 2 * length s + 2).
  { intros l s H. rewrite (nest_list user 0 (fun _ => eq_refl) l s H). destruct s; cbn [length]; lia. }
  split; [|split].
  - intros l s H. apply L. now apply l_reached_rep.
  - intros st s H. apply s_reached_rep in H. unfold debug_stack. cbn [nesting map snd list_max fold_right]. rewrite (L _ _ H). lia.
  - intros q s H. apply q_reached_rep in H. destruct H as (i & o & Hi & Ho & ->). unfold debug_queue. cbn [nesting map snd list_max fold_right].
    rewrite (L _ _ Hi), (L _ _ Ho), app_length, rev_length. lia.
Qed.
Print Assumptions C64_list_nesting.

(** Vectors and ordered maps need two calls for each level of a balanced tree. *)
Theorem C64_vector_nesting : forall (T : Type) (ubits : N) (dbg : bool) (bits : N),
  (8 <= ubits)%N -> (0 < bits < ubits)%N ->
  forall (v : rvec T) s, vec_reached ubits dbg bits v s ->
  forall levels : nat, 1 <= levels -> (N.of_nat (length s) <= (2 ^ bits) ^ N.of_nat levels)%N ->
  nesting (debug_vector user v) <= 2 * levels + 2.
Proof.
  intros T ubits dbg bits Hu [Hb Hbu] v s H levels H1 Hl.
  destruct (min_height ubits dbg bits Hu Hb Hbu v s H) as (h & E & _ & Hm).
  destruct (VectorHist.reached_rep ubits dbg bits Hu Hb Hbu v s H) as (Hr & _ & Hlt).
  destruct (v_height_rep ubits dbg bits Hu Hb Hbu v s Hr Hlt) as (h' & E' & _ & Hrep). rewrite E in E'. injection E' as ->.
  apply (Hm (N.of_nat levels)) in Hl; [|lia]. pose proof (nest_vnode user 0 (fun _ => eq_refl) bits h' _ _ Hrep) as Hn.
  unfold debug_vector. cbn [nesting map snd list_max fold_right]. unfold d_num. cbn [nesting]. lia.
Qed.
Print Assumptions C64_vector_nesting.

Theorem C64_rb_nesting : forall (X K V Q : Type) (dbg : bool)
  (kcmp : K -> K -> comparison) (borrow : K -> Q) (qcmp : Q -> Q -> comparison),
  ord_laws qcmp -> borrow_agrees kcmp borrow qcmp ->
  forall (ku : K -> X) (vu : V -> X),
  (forall m fm, rb_reached dbg kcmp borrow qcmp m fm ->
     (N.of_nat (nesting (debug_rb_map (fun k => user (ku k)) (fun v => user (vu v)) m)) <= 4 * N.log2 (N.of_nat (length fm) + 1) + 3)%N) /\
  (forall m s, rs_reached dbg kcmp borrow qcmp m s ->
     (N.of_nat (nesting (debug_rb_set (fun k => user (ku k)) m)) <= 4 * N.log2 (N.of_nat (length s) + 1) + 4)%N).
Proof.
  intros X K V Q dbg kcmp borrow qcmp OL KB ku vu. split.
  - intros m fm H. apply rb_reached_rep in H; auto. pose proof (Prop_RB.rep_hgt _ _ _ _ _ H) as Hh.
    pose proof (nest_tree (fun k => user (ku k)) (fun v => user (vu v)) (fun _ => eq_refl) (fun _ => eq_refl) (rb_root m)) as Hn.
    unfold debug_rb_map. cbn [nesting map snd list_max fold_right]. unfold d_num. cbn [nesting]. lia.
  - intros m s H. apply rs_reached_rep in H; auto. pose proof (Prop_RB.rep_hgt _ _ _ _ _ H) as Hh. rewrite map_length in Hh.
    pose proof (nest_tree (fun k => user (ku k)) (@debug_void X) (fun _ => eq_refl) (fun _ => eq_refl) (rb_root m)) as Hn.
    unfold debug_rb_set, debug_rb_map. cbn [nesting map snd list_max fold_right]. unfold d_num. cbn [nesting]. lia.
Qed.
Print Assumptions C64_rb_nesting.

(** Hash maps and sets need three for each digit of the hash, and two for each key with the same hash as
    another. *)
Lemma rep_nesting : forall X K V ubits b (keq : K -> K -> bool) hash (kd : K -> dcall X) (vd : V -> dcall X) (m : hmap K V) fm,
  (forall x, nesting (kd x) = 1) -> (forall x, nesting (vd x) = 1) ->
  hm_rep ubits b keq hash m fm -> doc_inv b true 0 (hm_root m) ->
  let depth := nesting (debug_hnode kd vd (hm_root m)) in
  (forall c, (forall x, length (filter (fun e => N.eqb (hash (fst e)) x) fm) <= c) -> depth <= 3 * D b + 2 * c + 6) /\
  (forall x, (forall e, In e fm -> hash (fst e) = x) -> 2 <= length fm -> 2 * length fm <= depth).
Proof.
  intros X K V ubits b keq hash kd vd m fm Hk Hv (es & R & Oh & P & _) Hdoc depth. split.
  - intros c Hc. assert (Hs : forall x, same_hash x es <= c).
    { intros x. rewrite <- (Hc x). unfold same_hash.
      assert (Pf : Permutation (filter (fun e => N.eqb (hash (fst e)) x) (map kv es)) (filter (fun e => N.eqb (hash (fst e)) x) fm)) by now apply Permutation_filter.
      rewrite <- (Permutation_length Pf). clear - Oh. induction es as [|e es IH]; [reflexivity|]. cbn [filter map].
      assert (E : N.eqb (e_hash e) x = N.eqb (hash (fst (kv e))) x) by (rewrite (Oh e (or_introl eq_refl)); reflexivity).
      assert (Hr : forall e', In e' es -> e_hash e' = hash (e_key e')) by (intros e' He'; apply Oh; now right).
      specialize (IH Hr). rewrite E. destruct (N.eqb (hash (fst (kv e))) x); cbn [length]; lia. }
    exact (nest_hnode kd vd Hk Hv _ _ _ c _ _ _ _ _ R Hdoc Hs).
  - intros x Hx L. assert (Le : length es = length fm) by (rewrite <- (Permutation_length P); now rewrite map_length).
    assert (Hs : forall e, In e es -> e_hash e = x).
    { intros e He. rewrite (Oh e He). apply (Hx (kv e)). eapply Permutation_in; [exact P|]. now apply in_map. }
    rewrite <- Le in *. exact (nest_hnode_ge kd vd Hk Hv _ _ _ x _ _ _ _ R Hs L).
Qed.

Theorem C64_hash_nesting : forall (X K V Q : Type) (ubits : N) (dbg : bool)
  (keq : K -> K -> bool) (borrow : K -> Q) (qeq : Q -> Q -> bool) (hash : K -> N) (qhash : Q -> N),
  (ubits <= 64)%N -> key_laws keq borrow qeq -> hash_laws borrow qeq hash qhash ->
  forall (ku : K -> X) (vu : V -> X) (h : X) (fuel : nat) (degree : N),
  (forall (m : hmap K V) (fm : fmap K V), hm_reached ubits dbg keq borrow qeq hash qhash fuel degree m fm ->
   let depth := nesting (debug_hash_map (fun k => user (ku k)) (fun v => user (vu v)) (user h) m) in
   (forall c, (forall x, length (filter (fun e => N.eqb (hash (fst e)) x) fm) <= c) -> depth <= 3 * digits degree + 2 * c + 7) /\
   (forall x, (forall e, In e fm -> hash (fst e) = x) -> 2 <= length fm -> 2 * length fm < depth)) /\
  (forall (m : hset K) (s : list K), hs_reached ubits dbg keq borrow qeq hash qhash fuel degree m s ->
   let depth := nesting (debug_hash_set (fun k => user (ku k)) (user h) m) in
   (forall c, (forall x, length (filter (fun e => N.eqb (hash e) x) s) <= c) -> depth <= 3 * digits degree + 2 * c + 8) /\
   (forall x, (forall e, In e s -> hash e = x) -> 2 <= length s -> 2 * length s < depth)).
Proof.
  intros X K V Q ubits dbg keq borrow qeq hash qhash Hub KL HL ku vu hb fuel degree. split.
  - intros m fm H depth. destruct (Prop_Hash.reached_rep _ _ _ _ _ _ _ _ _ _ _ _ _ _ Hub KL HL H) as (b & Hb & -> & Hd & _ & Hr).
    pose proof (rep_doc _ _ _ ubits dbg b keq borrow qeq hash qhash m fm Hb Hd Hub HL Hr) as Hdoc.
    destruct (rep_nesting X K V ubits b keq hash (fun k => user (ku k)) (fun v => user (vu v)) m fm (fun _ => eq_refl) (fun _ => eq_refl) Hr Hdoc) as (A & B).
    assert (Ed : depth = S (Nat.max (nesting (debug_hnode (fun k => user (ku k)) (fun v => user (vu v)) (hm_root m))) 1)) by reflexivity.
    rewrite Ed, digits_D. split; [intros c Hc; specialize (A c Hc); lia|intros x Hx L; specialize (B x Hx L); lia].
  - intros m s H depth. destruct (hs_reached_rep _ _ _ _ _ _ _ _ _ _ _ _ _ Hub KL HL H) as (b & Hb & -> & Hd & _ & Hr).
    pose proof (rep_doc _ _ _ ubits dbg b keq borrow qeq hash qhash m _ Hb Hd Hub HL Hr) as Hdoc.
    destruct (rep_nesting X K unit ubits b keq hash (fun k => user (ku k)) debug_void m _ (fun _ => eq_refl) (fun _ => eq_refl) Hr Hdoc) as (A & B).
    assert (Ed : depth = S (S (Nat.max (nesting (debug_hnode (fun k => user (ku k)) debug_void (hm_root m))) 1))).
    { unfold depth, debug_hash_set. cbn [nesting map snd list_max fold_right]. now rewrite Nat.max_0_r. }
    rewrite Ed, digits_D. split.
    + intros c Hc. assert (Hc' : forall x, length (filter (fun e : K * unit => N.eqb (hash (fst e)) x) (map HashExtraProofs.ut s)) <= c).
      { intros x. rewrite <- (Hc x). clear. induction s as [|y s IH]; [reflexivity|]. cbn [map filter]. unfold HashExtraProofs.ut at 1. cbn [fst].
        destruct (N.eqb (hash y) x); cbn [length]; lia. }
      specialize (A c Hc'). lia.
    + intros x Hx L. rewrite map_length in B.
      assert (Hx' : forall e, In e (map HashExtraProofs.ut s) -> hash (fst e) = x) by (intros e He; apply in_map_iff in He as (y & <- & Hy); now apply Hx).
      specialize (B x Hx' L). lia.
Qed.
Print Assumptions C64_hash_nesting.

(** ** Cases *)
(** The text shows the whole state, not only the contents: two collections of which the same is written are
    made of the same nodes, with the same colours, hashes, bitmaps, lengths and parameters.  (What the [Debug]
    of the elements writes must itself tell them apart.  The text is taken as pieces: which characters are
    the user's is known.) *)
Theorem C64_text_shows_state : forall (X T K V : Type) (tu : T -> X) (ku : K -> X) (vu : V -> X) (h : X),
  (forall a b, tu a = tu b -> a = b) -> (forall a b, ku a = ku b -> a = b) -> (forall a b, vu a = vu b -> a = b) ->
  let t := fun x => user (tu x) in let k := fun x => user (ku x) in let v := fun x => user (vu x) in
  (forall l1 l2 : rlist T, written (debug_list t l1) = written (debug_list t l2) -> l1 = l2) /\
  (forall s1 s2 : rstack T, written (debug_stack t s1) = written (debug_stack t s2) -> s1 = s2) /\
  (forall q1 q2 : rqueue T, written (debug_queue t q1) = written (debug_queue t q2) -> q1 = q2) /\
  (forall v1 v2 : rvec T, written (debug_vector t v1) = written (debug_vector t v2) -> v1 = v2) /\
  (forall m1 m2 : rbmap K V, written (debug_rb_map k v m1) = written (debug_rb_map k v m2) -> m1 = m2) /\
  (forall m1 m2 : rset T, written (debug_rb_set t m1) = written (debug_rb_set t m2) -> m1 = m2) /\
  (forall m1 m2 : hmap K V, written (debug_hash_map k v (user h) m1) = written (debug_hash_map k v (user h) m2) -> m1 = m2) /\
  (forall m1 m2 : hset T, written (debug_hash_set t (user h) m1) = written (debug_hash_set t (user h) m2) -> m1 = m2).
Proof.
  intros X T K V tu ku vu h It Ik Iv t k v. assert (Ht := tells_user T tu It). assert (Hk := tells_user K ku Ik). assert (Hv := tells_user V vu Iv).
  repeat split; apply tells_end.
  - now apply tells_list.
  - now apply tells_stack.
  - now apply tells_queue.
  - apply tells_vector; [assumption|apply opens_user].
  - now apply tells_rb.
  - now apply tells_rb_set.
  - now apply tells_hash.
  - now apply tells_hash_set.
Qed.
Print Assumptions C64_text_shows_state.

Example C64_case_list : exists l, l_reached l [1; 2] /\
  written (debug_list user l) =
    [Str "List"; Str " { "; Str "head"; Str ": "; Str "Some"; Str "("; Str "Node"; Str " { "; Str "value"; Str ": "; User 1;
     Str ", "; Str "next"; Str ": "; Str "Some"; Str "("; Str "Node"; Str " { "; Str "value"; Str ": "; User 2; Str ", ";
     Str "next"; Str ": "; Str "None"; Str " }"; Str ")"; Str " }"; Str ")"; Str ", "; Str "last"; Str ": "; Str "Some"; Str "(";
     User 2; Str ")"; Str ", "; Str "length"; Str ": "; Num 2; Str " }"]%string /\
  nesting (debug_list user l) = 6.
Proof. eexists. split; [exists [LPush 2; LPush 1]; eexists; split; reflexivity|]. split; reflexivity. Qed.

Example C64_case_rb : exists m, rb_reached true N.compare (fun k => k) N.compare m [(2, 20); (1, 10)]%N /\
  written (debug_rb_map user user m) =
    [Str "RedBlackTreeMap"; Str " { "; Str "root"; Str ": "; Str "Some"; Str "("; Str "Node"; Str " { "; Str "entry"; Str ": ";
     Str "Entry"; Str " { "; Str "key"; Str ": "; User 1; Str ", "; Str "value"; Str ": "; User 10; Str " }"; Str ", ";
     Str "color"; Str ": "; Str "Black"; Str ", "; Str "left"; Str ": "; Str "None"; Str ", "; Str "right"; Str ": ";
     Str "Some"; Str "("; Str "Node"; Str " { "; Str "entry"; Str ": ";
     Str "Entry"; Str " { "; Str "key"; Str ": "; User 2; Str ", "; Str "value"; Str ": "; User 20; Str " }"; Str ", ";
     Str "color"; Str ": "; Str "Red"; Str ", "; Str "left"; Str ": "; Str "None"; Str ", "; Str "right"; Str ": "; Str "None";
     Str " }"; Str ")"; Str " }"; Str ")"; Str ", "; Str "size"; Str ": "; Num 2; Str " }"]%string%N.
Proof. eexists. split; [eexists [MInsert 1%N 10%N; MInsert 2%N 20%N], _; split; [vm_compute; reflexivity|reflexivity]|]. vm_compute. reflexivity. Qed.

Example C64_case_hash : exists m f,
  hm_reached 64 true N.eqb (fun k => k) N.eqb (fun _ => 5%N) (fun _ => 5%N) 129 4 m f /\ length f = 3 /\
  output (debug_hash_map user user (user 9%N) m) = [3; 30; 2; 20; 1; 10; 1; 10; 9]%N /\
  nesting (debug_hash_map user user (user 9%N) m) = 109.
Proof.
  eexists _, _. split.
  - split; [exists 2%N; repeat split; discriminate|]. split; [vm_compute; repeat constructor|].
    eexists _, [MInsert 1%N 10%N; MInsert 2%N 20%N; MInsert 3%N 30%N], _. split; [reflexivity|]. split; [vm_compute; reflexivity|reflexivity].
  - split; [reflexivity|]. split; vm_compute; reflexivity.
Qed.

(** A sink that takes ten pieces: the second element is never formatted. *)
Example C64_case_sink : exists l, l_reached l [1; 2] /\
  fmt_into (fun p w => Ok (w ++ [p], Nat.ltb (List.length w) 10)) (debug_list user l) [] =
    Ok ([Str "List"; Str " { "; Str "head"; Str ": "; Str "Some"; Str "("; Str "Node"; Str " { "; Str "value"; Str ": "; User 1]%string, false).
Proof. eexists. split; [exists [LPush 2; LPush 1]; eexists; split; reflexivity|]. reflexivity. Qed.
