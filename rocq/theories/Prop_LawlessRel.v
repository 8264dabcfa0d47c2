(** Property C59: what comparing two whole collections asks user code, and what it makes of the
    answers, if the user code keeps no law, has state and may panic. *)
From Coq Require Import List NArith Arith Bool Lia Permutation.
From Verif Require Import Base Spec SpecMap SpecOrd SpecTrait SpecSerde SpecTalk Sim ListModel ListProofs VectorModel VectorHist SparseModel
  HashModel HashProofs HashHist HashExtra HashExtraProofs Prop_Hash RBModel RBProofs RBIter RBExtra TraitModel TraitProofs Prop_Traits
  LawlessModel LawlessAgree LawlessIter LawlessRB LawlessHash Prop_Lawless LawlessRelModel LawlessRel LawlessRelHash LawlessRelAgree.
Import ListNotations.

(** The items number 0, 1, 2, ... of both sides are compared in turn, up to the first pair that
    is not answered "equal" or the end of a side, and the answer is as SpecTalk.v says. *)
Definition compared {W A B R} (equal : R -> bool) (ends : comparison -> R) (ask : W -> A * B -> W * option R)
  (s1 : list A) (s2 : list B) (w : W) (r : res (W * uout unit R)) : Prop :=
  exists w' l x, r = Ok (w', x) /\ talk ask w l w' /\ in_step equal s1 s2 l /\ verdict equal ends s1 s2 l (told x).
(** [==] of sequences looks at the lengths first. *)
Definition eq_compared {W A B} (ask : W -> A * B -> W * option bool) (s1 : list A) (s2 : list B) (w : W) (r : res (W * uout unit bool)) : Prop :=
  if Nat.eqb (length s1) (length s2) then compared (fun b => b) is_eq ask s1 s2 w r else r = Ok (w, Gave false).

(** ** List, Stack, Queue, Vector *)
Theorem C59_list : forall (T : Type) (l1 l2 : rlist T) (s1 s2 : list T), l_reached l1 s1 -> l_reached l2 s2 ->
  forall (W : Type) (w : W),
  (forall ask : W -> T * T -> W * option bool, eq_compared ask s1 s2 w (w_l_eq ask w l1 l2)) /\
  (forall (R : Type) (equal : R -> bool) (ends : comparison -> R) (ask : W -> T * T -> W * option R),
     compared equal ends ask s1 s2 w (w_l_compare equal ends ask w l1 l2)).
Proof.
  intros T l1 l2 s1 s2 H1 H2 W w. apply l_reached_rep in H1, H2. destruct (l_iterates _ _ _ H1) as (I1 & Z1), (l_iterates _ _ _ H2) as (I2 & Z2).
  assert (X : forall R equal (ends : comparison -> R) ask, compared equal ends ask s1 s2 w (w_l_compare equal ends ask w l1 l2)).
  { intros R equal ends ask. eapply compare_ok; [apply quiet_sim, iterates_sim0|apply quiet_sim, iterates_sim0|exact I1|exact I2|lia]. }
  split; [|exact X]. intros ask. unfold eq_compared, w_l_eq. rewrite <- Z1, <- Z2. unfold l_len. destruct (Nat.eqb _ _); [apply X|reflexivity].
Qed.
Print Assumptions C59_list.

Theorem C59_stack : forall (T : Type) (l1 l2 : rstack T) (s1 s2 : list T), s_reached l1 s1 -> s_reached l2 s2 ->
  forall (W : Type) (w : W),
  (forall ask : W -> T * T -> W * option bool, eq_compared ask s1 s2 w (w_s_eq ask w l1 l2)) /\
  (forall (R : Type) (equal : R -> bool) (ends : comparison -> R) (ask : W -> T * T -> W * option R),
     compared equal ends ask s1 s2 w (w_s_compare equal ends ask w l1 l2)).
Proof.
  intros T l1 l2 s1 s2 H1 H2 W w. apply s_reached_rep in H1, H2. destruct (l_iterates _ _ _ H1) as (I1 & Z1), (l_iterates _ _ _ H2) as (I2 & Z2).
  assert (X : forall R equal (ends : comparison -> R) ask, compared equal ends ask s1 s2 w (w_s_compare equal ends ask w l1 l2)).
  { intros R equal ends ask. eapply compare_ok; [apply quiet_sim, iterates_sim0|apply quiet_sim, iterates_sim0|exact I1|exact I2|lia]. }
  split; [|exact X]. intros ask. unfold eq_compared, w_s_eq, w_l_eq. rewrite <- Z1, <- Z2. unfold l_len. destruct (Nat.eqb _ _); [apply X|reflexivity].
Qed.
Print Assumptions C59_stack.

Theorem C59_queue : forall (T : Type) (l1 l2 : rqueue T) (s1 s2 : list T), q_reached l1 s1 -> q_reached l2 s2 ->
  forall (W : Type) (w : W),
  (forall ask : W -> T * T -> W * option bool, eq_compared ask s1 s2 w (w_q_eq ask w l1 l2)) /\
  (forall (R : Type) (equal : R -> bool) (ends : comparison -> R) (ask : W -> T * T -> W * option R),
     compared equal ends ask s1 s2 w (w_q_compare equal ends ask w l1 l2)).
Proof.
  intros T l1 l2 s1 s2 H1 H2 W w. apply q_reached_rep in H1, H2. destruct (q_iterates _ _ _ H1) as (I1 & Z1), (q_iterates _ _ _ H2) as (I2 & Z2).
  assert (X : forall R equal (ends : comparison -> R) ask, compared equal ends ask s1 s2 w (w_q_compare equal ends ask w l1 l2)).
  { intros R equal ends ask. eapply compare_ok; [apply quiet_sim, iterates_sim0|apply quiet_sim, iterates_sim0|exact I1|exact I2|lia]. }
  split; [|exact X]. intros ask. unfold eq_compared, w_q_eq. rewrite <- Z1, <- Z2. destruct (Nat.eqb _ _); [apply X|reflexivity].
Qed.
Print Assumptions C59_queue.

(** The vectors may have different elements and bits. *)
Theorem C59_vector : forall (T T' : Type) (ubits : N) (dbg : bool) (bits bits' : N) (v1 : rvec T) (v2 : rvec T') (s1 : list T) (s2 : list T'),
  (8 <= ubits)%N -> (0 < bits < ubits)%N -> (0 < bits' < ubits)%N ->
  vec_reached ubits dbg bits v1 s1 -> vec_reached ubits dbg bits' v2 s2 -> forall (W : Type) (w : W),
  (forall ask : W -> T * T' -> W * option bool, eq_compared ask s1 s2 w (w_v_eq ubits dbg ask w v1 v2)) /\
  (forall (R : Type) (equal : R -> bool) (ends : comparison -> R) (ask : W -> T * T' -> W * option R),
     compared equal ends ask s1 s2 w (w_v_compare ubits dbg equal ends ask w v1 v2)).
Proof.
  intros T T' ubits dbg bits bits' v1 v2 s1 s2 Hu Hb Hb' H1 H2 W w.
  destruct (v_iterates _ _ _ _ _ _ Hu Hb H1) as (I1 & Z1 & L1), (v_iterates _ _ _ _ _ _ Hu Hb' H2) as (I2 & Z2 & L2).
  assert (X : forall R equal (ends : comparison -> R) ask, compared equal ends ask s1 s2 w (w_v_compare ubits dbg equal ends ask w v1 v2)).
  { intros R equal ends ask. eapply compare_ok; [apply quiet_sim, iterates_sim0|apply quiet_sim, iterates_sim0|exact I1|exact I2|lia]. }
  split; [|exact X]. intros ask. unfold eq_compared, w_v_eq. unfold v_len in L1, L2. rewrite L1, L2.
  destruct (Nat.eqb_spec (length s1) (length s2)) as [E|E]; [rewrite E, N.eqb_refl; apply X|].
  destruct (N.eqb_spec (N.of_nat (length s1)) (N.of_nat (length s2))); [lia|reflexivity].
Qed.
Print Assumptions C59_vector.

(** ** RedBlackTreeMap and RedBlackTreeSet.  The two collections may have been made with any user
    code ([U1], [U2]), the comparison may use any other. *)
Lemma shape_size : forall K V (m : rbmap K V), rb_shape m -> rb_size m = length (elems (rb_root m)).
Proof. intros K V m (H & _). exact H. Qed.

(** [partial_cmp] and [cmp]; [ask] compares two entries. *)
Theorem C59_rb_order : forall (W1 W2 K V Q : Type) (dbg : bool) (U1 : ord_code W1 K V Q) (U2 : ord_code W2 K V Q) (m1 m2 : rbmap K V),
  w_rb_reached dbg U1 m1 -> w_rb_reached dbg U2 m2 ->
  forall (W R : Type) (gt : W -> K -> K -> W * option bool) (equal : R -> bool) (ends : comparison -> R)
  (ask : W -> (K * V) * (K * V) -> W * option R) (w : W),
  compared equal ends ask (elems (rb_root m1)) (elems (rb_root m2)) w (w_rb_compare gt ask equal ends w m1 m2).
Proof.
  intros W1 W2 K V Q dbg U1 U2 m1 m2 H1 H2 W R gt equal ends ask w. apply w_rb_reached_shape, shape_size in H1, H2.
  eapply compare_ok; [apply ahead_sim|apply ahead_sim|now apply ahead_new|now apply ahead_new|lia].
Qed.
Print Assumptions C59_rb_order.

Theorem C59_rs_order : forall (W1 W2 K V Q : Type) (dbg : bool) (U1 : ord_code W1 K V Q) (U2 : ord_code W2 K V Q) (s1 s2 : rbmap K V),
  w_rb_reached dbg U1 s1 -> w_rb_reached dbg U2 s2 ->
  forall (W R : Type) (gt : W -> K -> K -> W * option bool) (equal : R -> bool) (ends : comparison -> R)
  (ask : W -> K * K -> W * option R) (w : W),
  compared equal ends ask (map fst (elems (rb_root s1))) (map fst (elems (rb_root s2))) w (w_rs_compare gt ask equal ends w s1 s2).
Proof.
  intros W1 W2 K V Q dbg U1 U2 m1 m2 H1 H2 W R gt equal ends ask w. apply w_rb_reached_shape, shape_size in H1, H2.
  eapply compare_ok; [apply kahead_sim|apply kahead_sim|now apply kahead_new|now apply kahead_new|rewrite map_length; lia].
Qed.
Print Assumptions C59_rs_order.

(** [==] of maps: nothing is asked if they are the same or their sizes differ.  Otherwise the
    entries are looked up in the other map in turn, with at most [2 log2 (size + 1)]
    comparisons and one of values each. *)
Lemma ord_same_len : forall K V n es (e : K * V) l r, ord_same n es e l r -> length l <= n + 1.
Proof.
  intros K V n es e l r H. assert (X : forall l o, ord_look n es (fst e) l o -> length l <= n).
  { intros l0 o H0. inversion H0; subst; try rewrite app_length; cbn [length]; lia. }
  inversion H as [? H0|? H0|? ? ? ? H0]; subst; apply X in H0; [| |rewrite app_length; cbn [length]]; lia.
Qed.
Lemma for_each_len : forall A X (P : A -> list X -> option bool -> Prop) n items l r,
  (forall a l r, P a l r -> length l <= n) -> for_each P items l r -> length l <= length items * n.
Proof.
  intros A X P n items l r HP H. induction H as [|a l c c' r Ha H IH|a l c r Ha Hr]; cbn [length Nat.mul]; [lia| |].
  - apply HP in Ha. rewrite app_length. lia.
  - apply HP in Ha. lia.
Qed.

Theorem C59_rb_eq : forall (W1 W2 K V Q : Type) (dbg : bool) (U1 : ord_code W1 K V Q) (U2 : ord_code W2 K V Q) (m1 m2 : rbmap K V),
  w_rb_reached dbg U1 m1 -> w_rb_reached dbg U2 m2 ->
  forall (W : Type) (U : ord_code W K V K) (gt : W -> K -> K -> W * option bool) (veq : W -> V -> V -> W * option bool) (w : W),
  w_rb_eq U gt veq w true m1 m2 = Ok (w, Gave true) /\
  (rb_size m1 <> rb_size m2 -> w_rb_eq U gt veq w false m1 m2 = Ok (w, Gave false)) /\
  (rb_size m1 = rb_size m2 -> exists w' l x, w_rb_eq U gt veq w false m1 m2 = Ok (w', x) /\ talk (ord_asks U veq) w l w' /\
     let n := N.to_nat (2 * N.log2 (N.of_nat (rb_size m2) + 1)) in
     for_each (ord_same n (elems (rb_root m2))) (elems (rb_root m1)) l (told x) /\ length l <= rb_size m1 * (n + 1)).
Proof.
  intros W1 W2 K V Q dbg U1 U2 m1 m2 H1 H2 W U gt veq w. apply w_rb_reached_shape in H1, H2.
  pose proof (shape_size _ _ _ H1) as Z1. split; [reflexivity|].
  destruct (rb_eq_talk gt U veq m1 m2 w Z1) as (w' & l & x & E & Ht & Hn & He). split.
  - intros Hd. destruct (Hn Hd) as (-> & ->). inversion Ht; subst. exact E.
  - intros Hd. specialize (He Hd). exists w', l, x. split; [exact E|]. split; [exact Ht|]. intros n.
    assert (Hh : hgt (rb_root m2) <= n).
    { pose proof (shape_hgt m2 H2) as X. unfold n. lia. }
    assert (HF : for_each (ord_same n (elems (rb_root m2))) (elems (rb_root m1)) l (told x)).
    { assert (HS : forall e l r, ord_same (hgt (rb_root m2)) (elems (rb_root m2)) e l r -> ord_same n (elems (rb_root m2)) e l r).
      { intros e l0 r Hs. inversion Hs; subst.
        - apply os_absent. eapply look_le; eassumption.
        - apply os_panic. eapply look_le; eassumption.
        - eapply os_value. eapply look_le; eassumption. }
      clear -He HS. induction He; [constructor|constructor; auto|apply fe_stop; auto]. }
    split; [exact HF|]. rewrite Z1. eapply for_each_len; [|exact HF]. intros e l0 r. apply ord_same_len.
Qed.
Print Assumptions C59_rb_eq.

(** [is_disjoint]: one question less than there are elements at most. *)
Theorem C59_rs_disjoint : forall (W1 W2 K V Q : Type) (dbg : bool) (U1 : ord_code W1 K V Q) (U2 : ord_code W2 K V Q) (s1 s2 : rbmap K V),
  w_rb_reached dbg U1 s1 -> w_rb_reached dbg U2 s2 ->
  forall (W : Type) (U : ord_code W K V K) (gt : W -> K -> K -> W * option bool) (w : W), exists w' l x,
  w_rs_is_disjoint U gt w s1 s2 = Ok (w', x) /\ talk (fun w p => oc_key U w (fst p) (snd p)) w l w' /\
  let L1 := map fst (elems (rb_root s1)) in let L2 := map fst (elems (rb_root s2)) in
  side_by_side L1 L2 l /\ disjoint_verdict L1 L2 l (told x) /\
  length l <= rb_size s1 + rb_size s2 - 1 /\ (rb_size s1 = 0 \/ rb_size s2 = 0 -> l = []).
Proof.
  intros W1 W2 K V Q dbg U1 U2 s1 s2 H1 H2 W U gt w. apply w_rb_reached_shape, shape_size in H1, H2. now apply disjoint_ok.
Qed.
Print Assumptions C59_rs_disjoint.

(** [is_subset]: one question per element of the other set at most. *)
Theorem C59_rs_subset : forall (W1 W2 K V Q : Type) (dbg : bool) (U1 : ord_code W1 K V Q) (U2 : ord_code W2 K V Q) (s1 s2 : rbmap K V),
  w_rb_reached dbg U1 s1 -> w_rb_reached dbg U2 s2 ->
  forall (W : Type) (U : ord_code W K V K) (gt : W -> K -> K -> W * option bool) (w : W),
  w_rs_is_subset U gt w true s1 s2 = Ok (w, Gave true) /\
  (rb_size s2 < rb_size s1 -> w_rs_is_subset U gt w false s1 s2 = Ok (w, Gave false)) /\
  (rb_size s1 <= rb_size s2 -> exists w' l x,
     w_rs_is_subset U gt w false s1 s2 = Ok (w', x) /\ talk (fun w p => oc_key U w (fst p) (snd p)) w l w' /\
     let L1 := map fst (elems (rb_root s1)) in let L2 := map fst (elems (rb_root s2)) in
     sweeping L1 L2 l /\ subset_verdict L1 L2 l (told x) /\ length l <= rb_size s2).
Proof.
  intros W1 W2 K V Q dbg U1 U2 s1 s2 H1 H2 W U gt w. apply w_rb_reached_shape, shape_size in H1, H2. split; [reflexivity|].
  destruct (subset_ok gt U s1 s2 w H1 H2) as (w' & l & x & E & Ht & Hn & Hs & Hl). split.
  - intros Hd. destruct (Hn Hd) as (-> & ->). inversion Ht; subst. exact E.
  - intros Hd. exists w', l, x. destruct (Hs Hd). auto.
Qed.
Print Assumptions C59_rs_subset.

(** ** HashTrieMap and HashTrieSet *)
(** The maps made by any calls with user code whose [Eq] does not change its mind between two
    questions in a row and does not panic (as in C47). *)
Definition w_hm_reached {W K V Q} (ubits : N) (dbg : bool) (U : hash_code W K V Q) (fuel : nat) (degree : N) (m : hmap K V) : Prop :=
  supported ubits degree /\ 2 * digits degree < fuel /\
  (forall w a b, exists w1 x w2, hc_key U w a b = (w1, Some x) /\ hc_key U w1 a b = (w2, Some x)) /\
  (forall w k q, exists w1 x, hc_query U w k q = (w1, Some x)) /\
  exists m0 ops w0 w outs, hm_new_with_degree ubits degree = Ok m0 /\
    w_exec (w_hm_step ubits dbg U fuel) ops w0 m0 = Ok (w, m, outs).
(** Its entries in the order of iteration, each with the hash stored beside it. *)
Definition hashed {K V} (m : hmap K V) : list ((K * V) * N) :=
  map (fun e => ((e_key e, e_val e), e_hash e)) (n_entries (hm_root m)).

Lemma reached_holds : forall W K V Q ubits dbg (U : hash_code W K V Q) fuel degree m, (ubits <= 64)%N ->
  w_hm_reached ubits dbg U fuel degree m -> exists b, (0 < b)%N /\ (2 ^ b <= ubits)%N /\ degree = (2 ^ b)%N /\ 2 * D b < fuel /\
  holds ubits b m (n_entries (hm_root m)).
Proof.
  intros W K V Q ubits dbg U fuel degree m Hub ((b & Hb & -> & Hd) & Hf & HT1 & HT2 & m0 & ops & w0 & w & outs & E0 & E).
  rewrite digits_D in Hf. exists b. split; [exact Hb|]. split; [exact Hd|]. split; [reflexivity|]. split; [exact Hf|].
  assert (HT : tame U) by (constructor; assumption).
  destruct (holds_new ubits dbg b Hb Hd Hub (K:=K) (V:=V)) as (m0' & E0' & H0).
  assert (m0' = m0) by congruence. subst m0'.
  destruct (w_hm_hist_ok ubits dbg b Hb Hd Hub U HT fuel Hf ops m0 [] w0 H0) as (w' & m' & outs' & es & E' & Hm & _).
  assert (m' = m) by congruence. subst m'. destruct Hm as (Hr & Hm). rewrite <- (hrep_entries _ _ _ _ _ _ Hr). now split.
Qed.

(** The entries are those of iteration, and there are as many as [size] says. *)
Theorem C59_hash_entries : forall (W K V Q : Type) (ubits : N) (dbg : bool) (U : hash_code W K V Q) (fuel : nat) (degree : N) (m : hmap K V),
  (ubits <= 64)%N -> w_hm_reached ubits dbg U fuel degree m ->
  hm_entries m = Ok (map fst (hashed m)) /\ hm_len m = length (hashed m).
Proof.
  intros W K V Q ubits dbg U fuel degree m Hub H. destruct (reached_holds _ _ _ _ _ _ _ _ _ _ Hub H) as (b & Hb & Hd & _ & _ & Hm).
  unfold hashed. rewrite map_map, map_length. split; [exact (proj1 (holds_iter ubits dbg b Hb Hd Hub m _ Hm))|apply Hm].
Qed.
Print Assumptions C59_hash_entries.

(** [==]: the key of every entry is hashed once (with the hasher of the other map) and compared
    with the keys of that stored hash up to the first equal one, then the values are. *)
Theorem C59_hash_eq : forall (W1 W2 K V Q : Type) (ubits : N) (dbg : bool) (U1 : hash_code W1 K V Q) (U2 : hash_code W2 K V Q)
  (fuel1 fuel2 : nat) (degree1 degree2 : N) (m1 m2 : hmap K V), (ubits <= 64)%N ->
  w_hm_reached ubits dbg U1 fuel1 degree1 m1 -> w_hm_reached ubits dbg U2 fuel2 degree2 m2 ->
  forall (W : Type) (U : hash_code W K V K) (veq : W -> V -> V -> W * option bool) (w : W),
  w_hm_eq ubits dbg U fuel2 veq w true m1 m2 = Ok (w, Gave true) /\
  (hm_len m1 <> hm_len m2 -> w_hm_eq ubits dbg U fuel2 veq w false m1 m2 = Ok (w, Gave false)) /\
  (hm_len m1 = hm_len m2 -> exists w' l x, w_hm_eq ubits dbg U fuel2 veq w false m1 m2 = Ok (w', x) /\
     talk (hash_asks U veq) w l w' /\ for_each (hash_same (hashed m2)) (map fst (hashed m1)) l (told x)).
Proof.
  intros W1 W2 K V Q ubits dbg U1 U2 fuel1 fuel2 degree1 degree2 m1 m2 Hub H1 H2 W U veq w.
  destruct (reached_holds _ _ _ _ _ _ _ _ _ _ Hub H1) as (b1 & Hb1 & Hd1 & _ & _ & Hm1).
  destruct (reached_holds _ _ _ _ _ _ _ _ _ _ Hub H2) as (b2 & Hb2 & Hd2 & _ & Hf & Hm2).
  split; [reflexivity|].
  destruct (hm_eq_talk ubits dbg b1 b2 Hb1 Hb2 Hd1 Hd2 Hub U fuel2 ltac:(lia) veq m1 m2 _ _ w Hm1 Hm2) as (w' & l & x & E & Ht & Hn & He).
  assert (Z1 : hm_len m1 = length (n_entries (hm_root m1))) by apply Hm1.
  assert (Z2 : hm_len m2 = length (n_entries (hm_root m2))) by apply Hm2. rewrite Z1, Z2. split; intros Hd.
  - destruct (Hn Hd) as (-> & ->). inversion Ht; subst. exact E.
  - exists w', l, x. split; [exact E|]. split; [exact Ht|]. unfold hashed. rewrite map_map. exact (He Hd).
Qed.
Print Assumptions C59_hash_eq.

(** [is_disjoint] and [is_subset]: [contains] of the other set, one element after the other.  The
    values are [()], which is compared without user code ([veq] is not asked anything). *)
Theorem C59_hs_disjoint : forall (W1 W2 K V Q : Type) (ubits : N) (dbg : bool) (U1 : hash_code W1 K V Q) (U2 : hash_code W2 K V Q)
  (fuel1 fuel2 : nat) (degree1 degree2 : N) (s1 s2 : hmap K V), (ubits <= 64)%N ->
  w_hm_reached ubits dbg U1 fuel1 degree1 s1 -> w_hm_reached ubits dbg U2 fuel2 degree2 s2 ->
  forall (W : Type) (U : hash_code W K V K) (veq : W -> V -> V -> W * option bool) (w : W), exists w' l x,
  w_hs_is_disjoint ubits dbg U fuel2 w s1 s2 = Ok (w', x) /\
  talk (hash_asks U veq) w l w' /\ for_each (hash_has false (hashed s2)) (map fst (hashed s1)) l (told x).
Proof.
  intros W1 W2 K V Q ubits dbg U1 U2 fuel1 fuel2 degree1 degree2 m1 m2 Hub H1 H2 W U veq w.
  destruct (reached_holds _ _ _ _ _ _ _ _ _ _ Hub H1) as (b1 & Hb1 & Hd1 & _ & _ & Hm1).
  destruct (reached_holds _ _ _ _ _ _ _ _ _ _ Hub H2) as (b2 & Hb2 & Hd2 & _ & Hf & Hm2).
  destruct (hs_disjoint_talk ubits dbg b1 b2 Hb1 Hb2 Hd1 Hd2 Hub U fuel2 ltac:(lia) veq m1 m2 _ _ w Hm1 Hm2) as (w' & l & x & E & Ht & He).
  exists w', l, x. split; [exact E|]. split; [exact Ht|]. unfold hashed. rewrite map_map. exact He.
Qed.
Print Assumptions C59_hs_disjoint.

Theorem C59_hs_subset : forall (W1 W2 K V Q : Type) (ubits : N) (dbg : bool) (U1 : hash_code W1 K V Q) (U2 : hash_code W2 K V Q)
  (fuel1 fuel2 : nat) (degree1 degree2 : N) (s1 s2 : hmap K V), (ubits <= 64)%N ->
  w_hm_reached ubits dbg U1 fuel1 degree1 s1 -> w_hm_reached ubits dbg U2 fuel2 degree2 s2 ->
  forall (W : Type) (U : hash_code W K V K) (veq : W -> V -> V -> W * option bool) (w : W),
  w_hs_is_subset ubits dbg U fuel2 w true s1 s2 = Ok (w, Gave true) /\
  (hm_len s2 < hm_len s1 -> w_hs_is_subset ubits dbg U fuel2 w false s1 s2 = Ok (w, Gave false)) /\
  (hm_len s1 <= hm_len s2 -> exists w' l x, w_hs_is_subset ubits dbg U fuel2 w false s1 s2 = Ok (w', x) /\
     talk (hash_asks U veq) w l w' /\ for_each (hash_has true (hashed s2)) (map fst (hashed s1)) l (told x)).
Proof.
  intros W1 W2 K V Q ubits dbg U1 U2 fuel1 fuel2 degree1 degree2 m1 m2 Hub H1 H2 W U veq w.
  destruct (reached_holds _ _ _ _ _ _ _ _ _ _ Hub H1) as (b1 & Hb1 & Hd1 & _ & _ & Hm1).
  destruct (reached_holds _ _ _ _ _ _ _ _ _ _ Hub H2) as (b2 & Hb2 & Hd2 & _ & Hf & Hm2).
  split; [reflexivity|].
  destruct (hs_subset_talk ubits dbg b1 b2 Hb1 Hb2 Hd1 Hd2 Hub U fuel2 ltac:(lia) veq m1 m2 _ _ w Hm1 Hm2) as (w' & l & x & E & Ht & Hn & He).
  assert (Z1 : hm_len m1 = length (n_entries (hm_root m1))) by apply Hm1.
  assert (Z2 : hm_len m2 = length (n_entries (hm_root m2))) by apply Hm2. rewrite Z1, Z2. split; intros Hd.
  - destruct (Hn Hd) as (-> & ->). inversion Ht; subst. exact E.
  - exists w', l, x. split; [exact E|]. split; [exact Ht|]. unfold hashed. rewrite map_map. exact (He Hd).
Qed.
Print Assumptions C59_hs_subset.

(** ** With lawful user code these are the functions of the other properties (C28, C29, C14, C21 ...). *)
Theorem C59_agrees_seq : forall (W T T' : Type) (ubits : N) (dbg : bool) (w : W),
  let q {A B R} (f : A -> B -> R) := fun (w : W) (ab : A * B) => (w, Some (f (fst ab) (snd ab))) in
  let pure {A} (r : res A) : res (W * uout unit A) := let! a := r in Ok (w, Gave a) in
  (forall (l o : rlist T) e p c, w_l_eq (q e) w l o = pure (l_eq e l o) /\
     w_l_compare is_equal Some (q p) w l o = pure (l_partial_cmp p l o) /\ w_l_compare is_eq (fun c => c) (q c) w l o = pure (l_cmp c l o)) /\
  (forall (l o : rstack T) e p c, w_s_eq (q e) w l o = pure (s_eq e l o) /\
     w_s_compare is_equal Some (q p) w l o = pure (s_partial_cmp p l o) /\ w_s_compare is_eq (fun c => c) (q c) w l o = pure (s_cmp c l o)) /\
  (forall (l o : rqueue T) e p c, w_q_eq (q e) w l o = pure (q_eq e l o) /\
     w_q_compare is_equal Some (q p) w l o = pure (q_partial_cmp p l o) /\ w_q_compare is_eq (fun c => c) (q c) w l o = pure (q_cmp c l o)) /\
  (forall (l : rvec T) (o : rvec T') e p, w_v_eq ubits dbg (q e) w l o = pure (v_eq ubits dbg e l o) /\
     w_v_compare ubits dbg is_equal Some (q p) w l o = pure (v_partial_cmp ubits dbg p l o)) /\
  (forall (l o : rvec T) c, w_v_compare ubits dbg is_eq (fun c => c) (q c) w l o = pure (v_cmp ubits dbg c l o)).
Proof.
  intros W T T' ubits dbg w q pure. split; [|split; [|split; [|split]]].
  - intros l o e p c. destruct (agree_l w l o) as (H1 & H2 & H3). split; [apply H1|]. split; [apply H2|apply H3].
  - intros l o e p c. destruct (agree_l w (s_list l) (s_list o)) as (H1 & H2 & H3). split; [apply H1|]. split; [apply H2|apply H3].
  - intros l o e p c. destruct (agree_q w l o) as (H1 & H2 & H3). split; [apply H1|]. split; [apply H2|apply H3].
  - intros l o e p. destruct (agree_v T' ubits dbg w l o) as (H1 & H2). split; [apply H1|apply H2].
  - intros l o c. exact (agree_v_cmp ubits dbg w l o c).
Qed.
Print Assumptions C59_agrees_seq.

Theorem C59_agrees_rb : forall (W K V : Type) (kcmp : K -> K -> comparison) (w : W) (m1 m2 : rbmap K V),
  let U := pure_ord kcmp (fun k => k) kcmp in
  let gt w a b := (w, Some match kcmp a b with Gt => true | _ => false end) in
  let pure {A} (r : res A) : res (W * uout unit A) := let! a := r in Ok (w, Gave a) in
  (forall veq same, w_rb_eq U gt (fun w a b => (w, Some (veq a b))) w same m1 m2 = pure (rb_eq kcmp veq same m1 m2)) /\
  (forall vcmp, w_rb_compare gt (pair_ask is_equal (fun w a b => (w, Some (Some (kcmp a b)))) (fun w a b => (w, Some (vcmp a b)))) is_equal Some w m1 m2
     = pure (rb_partial_cmp kcmp vcmp m1 m2)) /\
  (forall vcmp, w_rb_compare gt (pair_ask is_eq (fun w a b => (w, Some (kcmp a b))) (fun w a b => (w, Some (vcmp a b)))) is_eq (fun c => c) w m1 m2
     = pure (rb_cmp kcmp vcmp m1 m2)).
Proof.
  intros W K V kcmp w m1 m2 U gt pure. split; [|split]; intros.
  - apply agree_rb_eq. - apply agree_rb_partial_cmp. - apply agree_rb_cmp.
Qed.
Print Assumptions C59_agrees_rb.

Theorem C59_agrees_rs : forall (W T : Type) (tcmp : T -> T -> comparison) (w : W) (s1 s2 : rset T),
  let U := pure_ord tcmp (fun k => k) tcmp in
  let gt w a b := (w, Some match tcmp a b with Gt => true | _ => false end) in
  let pure {A} (r : res A) : res (W * uout unit A) := let! a := r in Ok (w, Gave a) in
  (forall same, w_rs_eq U gt w same s1 s2 = pure (rs_eq tcmp same s1 s2)) /\
  w_rs_compare gt (fun w ab => (w, Some (Some (tcmp (fst ab) (snd ab))))) is_equal Some w s1 s2 = pure (rs_partial_cmp tcmp s1 s2) /\
  w_rs_compare gt (fun w ab => (w, Some (tcmp (fst ab) (snd ab)))) is_eq (fun c => c) w s1 s2 = pure (rs_cmp tcmp s1 s2) /\
  w_rs_is_disjoint U gt w s1 s2 = pure (rs_is_disjoint tcmp s1 s2) /\
  (forall same, w_rs_is_subset U gt w same s1 s2 = pure (rs_is_subset tcmp same s1 s2)).
Proof.
  intros W T tcmp w s1 s2 U gt pure. split; [|split; [|split; [|split]]]; intros.
  - apply agree_rs_eq. - apply agree_rs_partial_cmp. - apply agree_rs_cmp. - apply agree_rs_is_disjoint. - apply agree_rs_is_subset.
Qed.
Print Assumptions C59_agrees_rs.

Theorem C59_agrees_hash : forall (W0 W K Q : Type) (ubits : N) (dbg : bool) (degree : N) (fuel1 fuel : nat)
  (keq : K -> K -> bool) (hash : K -> N) (w : W), (ubits <= 64)%N ->
  let pure {A} (r : res A) : res (W * uout unit A) := let! a := r in Ok (w, Gave a) in
  (forall (V : Type) (U0 : hash_code W0 K V Q) (m1 m2 : hmap K V), w_hm_reached ubits dbg U0 fuel1 degree m1 -> forall veq same,
     w_hm_eq ubits dbg (pure_hash keq (fun k => k) keq hash hash) fuel (fun w a b => (w, Some (veq a b))) w same m1 m2
     = pure (hm_eq ubits dbg keq fuel veq hash same m1 m2)) /\
  (forall (U0 : hash_code W0 K unit Q) (s1 s2 : hset K), w_hm_reached ubits dbg U0 fuel1 degree s1 ->
     w_hs_is_disjoint ubits dbg (pure_hash keq (fun k => k) keq hash hash) fuel w s1 s2 = pure (hs_is_disjoint ubits dbg keq fuel hash s1 s2) /\
     (forall same, w_hs_is_subset ubits dbg (pure_hash keq (fun k => k) keq hash hash) fuel w same s1 s2
        = pure (hs_is_subset ubits dbg keq fuel hash same s1 s2)) /\
     (forall same, w_hs_eq ubits dbg (pure_hash keq (fun k => k) keq hash hash) fuel w same s1 s2
        = pure (hs_eq ubits dbg keq fuel hash same s1 s2))).
Proof.
  intros W0 W K Q ubits dbg degree fuel1 fuel keq hash w Hub pure. split.
  - intros V U0 m1 m2 H veq same. destruct (reached_holds _ _ _ _ _ _ _ _ _ _ Hub H) as (b & Hb & Hd & _ & _ & Hm).
    exact (agree_hm_eq ubits dbg fuel b Hb Hd Hub W K V keq hash veq w same m1 m2 _ Hm).
  - intros U0 s1 s2 H. destruct (reached_holds _ _ _ _ _ _ _ _ _ _ Hub H) as (b & Hb & Hd & _ & _ & Hm). split; [|split].
    + exact (agree_hs_is_disjoint ubits dbg fuel b Hb Hd Hub W K keq hash w s1 s2 _ Hm).
    + intros same. exact (agree_hs_is_subset ubits dbg fuel b Hb Hd Hub W K keq hash w same s1 s2 _ Hm).
    + intros same. exact (agree_hm_eq ubits dbg fuel b Hb Hd Hub W K unit keq hash (fun _ _ => true) w same s1 s2 _ Hm).
Qed.
Print Assumptions C59_agrees_hash.

(** Examples.  User code that keeps its questions and answers from a list (then [Eq], or
    [true]); an answer that is [None] is a panic. *)
Local Open Scope N_scope.
Definition replies {X A} (default : A) (w : list (option A) * list X) (x : X) : (list (option A) * list X) * option A :=
  match fst w with
  | [] => ([], snd w ++ [x], Some default)
  | a :: l => (l, snd w ++ [x], a)
  end.
(** The questions asked and the answer, [None] if user code panicked. *)
Definition asked {A X R} (r : res ((A * list X) * uout unit R)) : option (list X * option R) :=
  match r with Ok ((_, l), x) => Some (l, told x) | _ => None end.

Definition ex_ord : ord_code unit N unit N := pure_ord N.compare (fun k => k) N.compare.
Definition ex_set (l : list N) : rbmap N unit :=
  match w_exec (w_rb_step true ex_ord) (map (fun k => (false, MInsertMut k tt)) l) tt rb_new with Ok (_, m, _) => m | _ => rb_new end.
Definition ex_says (U : list (option comparison)) : ord_code (list (option comparison) * list (N * N)) N unit N :=
  mkOrd _ _ _ _ (fun w a b => replies Eq w (a, b)) (fun w a b => replies Eq w (a, b)) (fun w e => (w, Some e)).
Definition ex_gt (w : list (option comparison) * list (N * N)) (a b : N) : (list (option comparison) * list (N * N)) * option bool := (w, None).
Definition ex_disjoint U a b := asked (w_rs_is_disjoint (ex_says U) ex_gt (U, []) (ex_set a) (ex_set b)).
Definition ex_subset U a b := asked (w_rs_is_subset (ex_says U) ex_gt (U, []) false (ex_set a) (ex_set b)).

Example C59_example_sets :
  w_rb_reached true ex_ord (ex_set [1; 3; 5]) /\ w_rb_reached true ex_ord (ex_set [2; 3; 4; 6]) /\
  (* what the order really is: 3 is in both *)
  ex_disjoint [Some Lt; Some Gt; Some Eq] [1; 3; 5] [2; 3; 4; 6] = Some ([(1, 2); (3, 2); (3, 3)], Some false) /\
  (* an order in which everything is less *)
  ex_disjoint [Some Lt; Some Lt; Some Lt; Some Lt] [1; 3; 5] [2; 3; 4; 6] = Some ([(1, 2); (3, 2); (5, 2)], Some true) /\
  (* the most that can be asked: 3 + 4 - 1 *)
  ex_disjoint [Some Gt; Some Lt; Some Gt; Some Lt; Some Gt; Some Lt] [1; 3; 5] [2; 3; 4; 6]
    = Some ([(1, 2); (1, 3); (3, 3); (3, 4); (5, 4); (5, 6)], Some true) /\
  ex_disjoint [Some Lt; None] [1; 3; 5] [2; 3; 4; 6] = Some ([(1, 2); (3, 2)], None) /\
  ex_subset [Some Lt; Some Eq; Some Gt] [3; 5] [2; 3; 6] = Some ([(2, 3); (3, 3); (6, 5)], Some false) /\
  ex_subset [] [1; 3; 5] [2; 3; 6] = Some ([(2, 1); (3, 3); (6, 5)], Some true) /\
  ex_subset [Some Lt; Some Lt; Some Lt] [1; 3; 5] [2; 3; 6] = Some ([(2, 1); (3, 1); (6, 1)], Some false) /\
  ex_subset [Some Lt; None] [1; 3] [2; 3; 6] = Some ([(2, 1); (3, 1)], None) /\
  asked (w_rs_compare ex_gt (replies Eq) is_eq (fun c => c) ([Some Eq; Some Gt], []) (ex_set [1; 3; 5]) (ex_set [2; 3; 6]))
    = Some ([(1, 2); (3, 3)], Some Gt) /\
  asked (w_rs_compare ex_gt (replies Eq) is_eq (fun c => c) ([], []) (ex_set [1; 3]) (ex_set [2; 3; 6])) = Some ([(1, 2); (3, 3)], Some Lt).
Proof.
  split; [eexists (map (fun k => (false, MInsertMut k tt)) [1; 3; 5]), tt, tt, _; vm_compute; reflexivity|].
  split; [eexists (map (fun k => (false, MInsertMut k tt)) [2; 3; 4; 6]), tt, tt, _; vm_compute; reflexivity|].
  vm_compute. repeat split; reflexivity.
Qed.

(** Maps: every entry of the first is looked up in the second. *)
Definition ex_map (l : list (N * N)) : rbmap N N :=
  match w_exec (w_rb_step true (pure_ord N.compare (fun k => k) N.compare)) (map (fun e => (false, MInsertMut (fst e) (snd e))) l) tt rb_new with
  | Ok (_, m, _) => m | _ => rb_new end.
Definition ex_keep : ord_code (list (option bool) * list (ord_call N N)) N N N :=
  mkOrd _ _ _ _ (fun w a b => (w, None)) (fun w a b => ((fst w, snd w ++ [OCmp a b]), Some (a ?= b)))
    (fun w e => (w, Some e)).
Definition ex_eq U same a b := asked (w_rb_eq ex_keep (fun w _ _ => (w, None)) (fun w v v' => replies true w (OVal v v')) (U, []) same (ex_map a) (ex_map b)).
Example C59_example_map_eq :
  w_rb_reached true (@pure_ord unit N N N N.compare (fun k => k) N.compare) (ex_map [(1, 10); (2, 20); (3, 30)]) /\
  ex_eq [] false [(1, 10); (2, 20); (3, 30)] [(3, 31); (2, 21); (1, 11)]
    = Some ([OCmp 1 2; OCmp 1 1; OVal 10 11; OCmp 2 2; OVal 20 21; OCmp 3 2; OCmp 3 3; OVal 30 31], Some true) /\
  ex_eq [Some true; Some false] false [(1, 10); (2, 20); (3, 30)] [(3, 31); (2, 21); (1, 11)]
    = Some ([OCmp 1 2; OCmp 1 1; OVal 10 11; OCmp 2 2; OVal 20 21], Some false) /\
  ex_eq [None] false [(1, 10); (2, 20); (3, 30)] [(3, 31); (2, 21); (1, 11)] = Some ([OCmp 1 2; OCmp 1 1; OVal 10 11], None) /\
  ex_eq [] false [(1, 10); (4, 20); (3, 30)] [(3, 31); (2, 21); (1, 11)]
    = Some ([OCmp 1 2; OCmp 1 1; OVal 10 11; OCmp 3 2; OCmp 3 3; OVal 30 31; OCmp 4 2; OCmp 4 3], Some false) /\
  ex_eq [] false [(1, 10); (2, 20)] [(3, 31); (2, 21); (1, 11)] = Some ([], Some false) /\
  ex_eq [] true [(1, 10); (2, 20)] [(3, 31)] = Some ([], Some true).
Proof.
  split; [eexists (map (fun e => (false, MInsertMut (fst e) (snd e))) [(1, 10); (2, 20); (3, 30)]), tt, tt, _; vm_compute; reflexivity|].
  vm_compute. repeat split; reflexivity.
Qed.

(** Hash maps: keys are numbers hashed modulo 10 when they are inserted.  [==] hashes them by
    answers of its own: the first time 3, the second time a panic, then 4. *)
Definition ex_hm (degree : N) (l : list N) : res (hmap N N) :=
  let h k := k mod 10 in
  let! m0 := hm_new_with_degree 64 degree in
  let! (_, m, _) := w_exec (w_hm_step 64 true (pure_hash N.eqb (fun k => k) N.eqb h h) 129) (map (fun k => (false, MInsertMut k (k * 10))) l) tt m0 in Ok m.
Definition ex_hash : hash_code (list (option hash_answer) * list (hash_call N N)) N N N :=
  let num w := match w with (w, Some (HNum n)) => (w, Some n) | (w, _) => (w, None) end in
  let bool w := match w with (w, Some (HBool n)) => (w, Some n) | (w, _) => (w, None) end in
  mkHash _ _ _ _ (fun w k => (w, None)) (fun w k => num (replies (HNum 0) w (HHash k))) (fun w _ _ => (w, None))
    (fun w a b => bool (replies (HBool false) w (HKey a b))) (fun w e => (w, Some e)).
Definition ex_hval (w : list (option hash_answer) * list (hash_call N N)) (v v' : N) :=
  match replies (HBool true) w (HVal v v') with (w, Some (HBool n)) => (w, Some n) | (w, _) => (w, None) end.
Definition ex_hrel (f : list (option hash_answer) * list (hash_call N N) -> hmap N N -> hmap N N ->
    res ((list (option hash_answer) * list (hash_call N N)) * uout unit bool)) U a b :=
  match ex_hm 64 a, ex_hm 16 b with Ok a, Ok b => asked (f (U, []) a b) | _, _ => None end.
Example C59_example_hash :
  let yes := Some (HBool true) in let no := Some (HBool false) in let num n := Some (HNum n) in
  let eq w := w_hm_eq 64 true ex_hash 129 ex_hval w false in
  let disjoint := w_hs_is_disjoint 64 true ex_hash 129 in
  let subset w := w_hs_is_subset 64 true ex_hash 129 w false in
  match ex_hm 64 [13; 4; 7] with Ok m => w_hm_reached 64 true (@pure_hash unit N N N N.eqb (fun k => k) N.eqb (fun k => k mod 10) (fun k => k mod 10)) 129 64 m /\
    hashed m = [((13, 130), 3); ((4, 40), 4); ((7, 70), 7)] | _ => False end /\
  match ex_hm 16 [3; 13; 23; 4] with Ok m => hashed m = [((23, 230), 3); ((13, 130), 3); ((3, 30), 3); ((4, 40), 4)] | _ => False end /\
  ex_hrel eq [num 3; no; yes; yes; num 4; yes; no] [13; 4; 7; 8] [3; 13; 23; 4]
    = Some ([HHash 13; HKey 23 13; HKey 13 13; HVal 130 130; HHash 4; HKey 4 4; HVal 40 40], Some false) /\
  ex_hrel eq [num 3; no; yes; yes; None] [13; 4; 7; 8] [3; 13; 23; 4]
    = Some ([HHash 13; HKey 23 13; HKey 13 13; HVal 130 130; HHash 4], None) /\
  ex_hrel eq [] [13; 4; 7] [3; 13; 23; 4] = Some ([], Some false) /\
  ex_hrel disjoint [num 3; no; no; no; num 9; num 4; yes] [13; 4; 7] [3; 13; 23; 4]
    = Some ([HHash 13; HKey 23 13; HKey 13 13; HKey 3 13; HHash 4; HHash 7; HKey 4 7], Some false) /\
  ex_hrel subset [num 4; yes; num 4; yes; num 4; yes] [13; 4; 7] [3; 13; 23; 4]
    = Some ([HHash 13; HKey 4 13; HHash 4; HKey 4 4; HHash 7; HKey 4 7], Some true) /\
  ex_hrel subset [num 3; no; None] [13; 4; 7] [3; 13; 23; 4] = Some ([HHash 13; HKey 23 13; HKey 13 13], None) /\
  ex_hrel subset [] [3; 13; 23; 4] [13; 4; 7] = Some ([], Some false).
Proof.
  cbv zeta. split.
  - assert (E : exists m, ex_hm 64 [13; 4; 7] = Ok m /\ hashed m = [((13, 130), 3); ((4, 40), 4); ((7, 70), 7)] /\
      exists m0 outs, hm_new_with_degree 64 64 = Ok m0 /\
      w_exec (w_hm_step 64 true (@pure_hash unit N N N N.eqb (fun k => k) N.eqb (fun k => k mod 10) (fun k => k mod 10)) 129)
        (map (fun k => (false, MInsertMut k (k * 10))) [13; 4; 7]) tt m0 = Ok (tt, m, outs)).
    { eexists. split; [vm_compute; reflexivity|]. split; [vm_compute; reflexivity|]. eexists _, _. split; [vm_compute; reflexivity|vm_compute; reflexivity]. }
    destruct E as (m & -> & Eh & m0 & outs & E0 & E). split; [|exact Eh].
    split; [exists 6; split; [lia|]; split; [reflexivity|lia]|]. split; [vm_compute; lia|]. split; [intros; cbn; eauto|]. split; [intros; cbn; eauto|].
    exists m0, (map (fun k => (false, MInsertMut k (k * 10))) [13; 4; 7]), tt, tt, outs. split; [exact E0|exact E].
  - vm_compute. repeat split; reflexivity.
Qed.

(** Sequences: [==] of a list with itself is not [true] if its elements are not equal to
    themselves. *)
Definition ex_list (l : list N) : rlist N := fold_left (fun l x => l_push_front_mut x l) (rev l) l_new.
Definition ex_same U a b := asked (w_l_eq (replies true) (U, []) (ex_list a) (ex_list b)).
Example C59_example_list :
  l_reached (ex_list [1; 2; 3]) [1; 2; 3] /\
  ex_same [Some true; Some false] [1; 2; 3] [1; 2; 3] = Some ([(1, 1); (2, 2)], Some false) /\
  ex_same [] [1; 2; 3] [7; 8; 9] = Some ([(1, 7); (2, 8); (3, 9)], Some true) /\
  ex_same [] [1; 2] [7; 8; 9] = Some ([], Some false) /\
  ex_same [Some true; Some true; None] [1; 2; 3] [1; 2; 3] = Some ([(1, 1); (2, 2); (3, 3)], None) /\
  asked (w_l_compare is_equal Some (replies (Some Eq)) ([Some (Some Eq); Some None], []) (ex_list [1; 2; 3]) (ex_list [1; 2; 3]))
    = Some ([(1, 1); (2, 2)], Some None) /\
  asked (w_l_compare is_equal Some (replies (Some Eq)) ([], []) (ex_list [1; 2; 3]) (ex_list [1; 2])) = Some ([(1, 1); (2, 2)], Some (Some Gt)).
Proof.
  split; [eexists [LPushMut 3; LPushMut 2; LPushMut 1], _; split; [vm_compute; reflexivity|reflexivity]|].
  vm_compute. repeat split; reflexivity.
Qed.
