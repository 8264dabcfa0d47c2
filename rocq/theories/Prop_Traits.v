(** Properties C28, C29 (sequences) and C32: comparison, hashing and display. *)
From Coq Require Import String List NArith Arith Bool Lia Permutation Sorted.
From Verif Require Import Base Spec SpecMap SpecOrd SpecTrait SpecSerde Sim IterStd ListModel ListProofs
  VectorModel VectorProofs VectorOps VectorIter VectorHist SparseModel HashModel HashProofs HashHist HashExtra HashExtraProofs Prop_Hash
  RBModel RBProofs RBHist RBIter RBExtra RBExtraProofs Prop_RB TraitModel TraitProofs.
Import ListNotations.

(** Collections obtained by some history, with the sequence the history describes. *)
Definition l_reached {T} (l : rlist T) (s : list T) : Prop :=
  exists ops outs, exec_m l_step ops l_new = Ok (l, outs) /\ s = fst (exec_s list_spec ops []).
Definition s_reached {T} (st : rstack T) (s : list T) : Prop :=
  exists ops outs, exec_m s_step ops ListModel.s_new = Ok (st, outs) /\ s = fst (exec_s stack_spec ops []).
Definition q_reached {T} (q : rqueue T) (s : list T) : Prop :=
  exists ops outs, exec_m q_step ops q_new = Ok (q, outs) /\ s = fst (exec_s queue_spec ops []).

Lemma l_reached_rep : forall T (l : rlist T) s, l_reached l s -> l_rep l s.
Proof. intros T l s (ops & outs & E & ->). destruct (list_history ops) as (l' & E' & R). rewrite E in E'. injection E' as <- _. exact R. Qed.
Lemma s_reached_rep : forall T (st : rstack T) s, s_reached st s -> l_rep (s_list st) s.
Proof. intros T l s (ops & outs & E & ->). destruct (stack_history ops) as (l' & E' & R). rewrite E in E'. injection E' as <- _. exact R. Qed.
Lemma q_reached_rep : forall T (q : rqueue T) s, q_reached q s -> q_rep q s.
Proof. intros T l s (ops & outs & E & ->). destruct (queue_history ops) as (l' & E' & R). rewrite E in E'. injection E' as <- _. exact R. Qed.

Lemma l_iterates : forall T (l : rlist T) s, l_rep l s -> iterates l_iter_next l_iter_hint (l_iter_new l) s /\ l_len l = length s.
Proof.
  intros T l s R. split; [|apply R]. eapply iterates_of_sim; [exact l_iter_sim|now apply l_iter_new_rep].
Qed.
Lemma q_iterates : forall T (q : rqueue T) s, q_rep q s -> iterates q_iter_next q_iter_hint (q_iter_new q) s /\ q_len q = length s.
Proof.
  intros T l s R. split; [|now apply q_rep_len]. eapply iterates_of_sim; [exact q_iter_sim|now apply q_iter_new_rep].
Qed.
Lemma v_iterates : forall T ubits dbg bits (v : rvec T) l, (8 <= ubits)%N -> (0 < bits < ubits)%N ->
  vec_reached ubits dbg bits v l ->
  iterates (vi_next ubits dbg) (vi_size_hint ubits dbg) (vi_new v) l /\ N.to_nat (v_len v) = length l /\ v_len v = N.of_nat (length l).
Proof.
  intros T ubits dbg bits v l Hu [Hb Hbu] H.
  destruct (VectorHist.reached_rep ubits dbg bits Hu Hb Hbu v l H) as (Hr & _ & Hlt).
  split.
  - eapply iterates_of_sim2; [exact (vi_sim2 ubits dbg bits Hu Hb Hbu v l Hr Hlt)|exact (vi_new_rep ubits dbg bits Hu Hb Hbu v l Hr Hlt)].
  - destruct Hr as (_ & E & _). unfold v_len. rewrite E. unfold len. rewrite Nat2N.id. auto.
Qed.
Lemma hm_iterates : forall K V Q ubits dbg keq (borrow : K -> Q) qeq hash qhash fuel degree (m : hmap K V) fm,
  (ubits <= 64)%N -> key_laws keq borrow qeq -> hash_laws borrow qeq hash qhash ->
  hm_reached ubits dbg keq borrow qeq hash qhash fuel degree m fm ->
  exists l, hm_entries m = Ok l /\ Permutation l fm /\ iterates hi_next hi_hint (hi_new m) l /\ hm_size m = length l.
Proof.
  intros K V Q ubits dbg keq borrow qeq hash qhash fuel degree m fm Hub KL HL H.
  destruct (Prop_Hash.reached_rep _ _ _ _ _ _ _ _ _ _ _ _ _ _ Hub KL HL H) as (b & Hb & -> & Hd & Hf & Hr).
  destruct (hm_entries_ok ubits dbg b Hb Hd Hub keq borrow qeq hash qhash KL HL fuel Hf m fm Hr) as (l & E & Hp & Hk).
  exists l. split; [exact E|]. split; [exact Hp|]. split; [exact Hk|].
  destruct (iterates_sim _ _ _ _ _ _ Hk) as (Hh & _). unfold hi_hint, hi_new in Hh. now injection Hh.
Qed.
Lemma hs_iterates : forall T Q ubits dbg teq (borrow : T -> Q) qeq hash qhash fuel degree (m : hset T) s,
  (ubits <= 64)%N -> key_laws teq borrow qeq -> hash_laws borrow qeq hash qhash ->
  hs_reached ubits dbg teq borrow qeq hash qhash fuel degree m s ->
  exists l, hs_elems m = Ok l /\ Permutation l s /\ iterates hk_next hi_hint (hi_new m) l /\ hs_size m = length l.
Proof.
  intros T Q ubits dbg teq borrow qeq hash qhash fuel degree m s Hub KL HL H.
  destruct (hs_reached_rep _ _ _ _ _ _ _ _ _ _ _ _ _ Hub KL HL H) as (b & Hb & -> & Hd & Hf & Hr).
  destruct (hm_entries_ok ubits dbg b Hb Hd Hub teq borrow qeq hash qhash KL HL fuel Hf m _ Hr) as (l & E & Hp & Hk).
  exists (map fst l). unfold hs_elems, hm_keys. rewrite E. split; [reflexivity|]. split; [now apply perm_ut|]. split.
  - exact (iterates_map _ _ _ _ _ fst _ _ Hk).
  - rewrite map_length. destruct (iterates_sim _ _ _ _ _ _ Hk) as (Hh & _). unfold hi_hint, hi_new in Hh. now injection Hh.
Qed.
Lemma rb_iterates : forall K V (kcmp : K -> K -> comparison) (m : rbmap K V) fm, ord_laws kcmp -> rb_rep kcmp m fm ->
  iterates (it_next kcmp) it_hint (it_new m) (elems (rb_root m)) /\ rb_size m = length (elems (rb_root m)).
Proof.
  intros K V kcmp m fm OK H. pose proof (rep_size _ _ _ H) as Hz. split; [|exact Hz].
  eapply iterates_of_sim2; [apply (it_sim2 kcmp OK m); apply H|now apply it_new_ok].
Qed.
Lemma rs_iterates : forall T (tcmp : T -> T -> comparison) (m : rset T) s, ord_laws tcmp -> rs_rep tcmp m s ->
  iterates (si_next tcmp) it_hint (it_new m) (elts m) /\ rs_size m = length (elts m).
Proof.
  intros T tcmp m s OK H. split; [|exact (elts_size tcmp OK m s H)].
  eapply iterates_of_sim2; [apply (si_sim2 tcmp OK m); exact (rep_sorted _ _ _ H)|exact (si_new_ok tcmp OK m s H)].
Qed.

(** ** C28.  The result of each trait method is a function of the sequence a collection stands
    for, whatever its internal layout. *)
Theorem C28_list_traits : forall (T : Type) (l1 l2 : rlist T) (s1 s2 : list T), l_reached l1 s1 -> l_reached l2 s2 ->
  (forall teq, exists r, l_eq teq l1 l2 = Ok r /\ (r = true <-> seq_equal teq s1 s2)) /\
  (forall c, l_partial_cmp c l1 l2 = Ok (plex c s1 s2)) /\
  (forall c, l_cmp c l1 l2 = Ok (lex c s1 s2)) /\
  (forall h, l_hash h l1 = Ok (seq_feed h s1)).
Proof.
  intros T l1 l2 s1 s2 H1 H2. apply l_reached_rep in H1, H2. destruct (l_iterates _ _ _ H1) as (I1 & Z1), (l_iterates _ _ _ H2) as (I2 & Z2).
  split; [|split; [|split]].
  - intros teq. eapply eq_iterates; [exact I1|exact I2|exact Z1|]. rewrite <- Z1, <- Z2. apply Nat.eqb_eq.
  - intros c. eapply partial_cmp_iterates; eassumption.
  - intros c. eapply cmp_iterates; eassumption.
  - intros h. eapply hash_iterates; eassumption.
Qed.
Print Assumptions C28_list_traits.

Theorem C28_stack_traits : forall (T : Type) (l1 l2 : rstack T) (s1 s2 : list T), s_reached l1 s1 -> s_reached l2 s2 ->
  (forall teq, exists r, s_eq teq l1 l2 = Ok r /\ (r = true <-> seq_equal teq s1 s2)) /\
  (forall c, s_partial_cmp c l1 l2 = Ok (plex c s1 s2)) /\
  (forall c, s_cmp c l1 l2 = Ok (lex c s1 s2)) /\
  (forall h, s_hash h l1 = Ok (seq_feed h s1)).
Proof.
  intros T l1 l2 s1 s2 H1 H2. apply s_reached_rep in H1, H2. destruct (l_iterates _ _ _ H1) as (I1 & Z1), (l_iterates _ _ _ H2) as (I2 & Z2).
  split; [|split; [|split]].
  - intros teq. eapply eq_iterates; [exact I1|exact I2|exact Z1|]. rewrite <- Z1, <- Z2. apply Nat.eqb_eq.
  - intros c. eapply partial_cmp_iterates; eassumption.
  - intros c. eapply cmp_iterates; eassumption.
  - intros h. eapply hash_iterates; eassumption.
Qed.
Print Assumptions C28_stack_traits.

Theorem C28_queue_traits : forall (T : Type) (l1 l2 : rqueue T) (s1 s2 : list T), q_reached l1 s1 -> q_reached l2 s2 ->
  (forall teq, exists r, q_eq teq l1 l2 = Ok r /\ (r = true <-> seq_equal teq s1 s2)) /\
  (forall c, q_partial_cmp c l1 l2 = Ok (plex c s1 s2)) /\
  (forall c, q_cmp c l1 l2 = Ok (lex c s1 s2)) /\
  (forall h, q_hash h l1 = Ok (seq_feed h s1)).
Proof.
  intros T l1 l2 s1 s2 H1 H2. apply q_reached_rep in H1, H2. destruct (q_iterates _ _ _ H1) as (I1 & Z1), (q_iterates _ _ _ H2) as (I2 & Z2).
  split; [|split; [|split]].
  - intros teq. eapply eq_iterates; [exact I1|exact I2|exact Z1|]. rewrite <- Z1, <- Z2. apply Nat.eqb_eq.
  - intros c. eapply partial_cmp_iterates; eassumption.
  - intros c. eapply cmp_iterates; eassumption.
  - intros h. eapply hash_iterates; eassumption.
Qed.
Print Assumptions C28_queue_traits.

(** The two vectors may have different node sizes and, for [==] and [partial_cmp], different
    element types. *)
Theorem C28_vector_traits : forall (T U : Type) (ubits : N) (dbg : bool) (b1 b2 b3 : N),
  (8 <= ubits)%N -> (0 < b1 < ubits)%N -> (0 < b2 < ubits)%N -> (0 < b3 < ubits)%N ->
  forall (v1 : rvec T) (v2 : rvec U) (v3 : rvec T) (l1 : list T) (l2 : list U) (l3 : list T),
  vec_reached ubits dbg b1 v1 l1 -> vec_reached ubits dbg b2 v2 l2 -> vec_reached ubits dbg b3 v3 l3 ->
  (forall teq, exists r, v_eq ubits dbg teq v1 v2 = Ok r /\ (r = true <-> seq_equal teq l1 l2)) /\
  (forall c, v_partial_cmp ubits dbg c v1 v2 = Ok (plex c l1 l2)) /\
  (forall c, v_cmp ubits dbg c v1 v3 = Ok (lex c l1 l3)) /\
  (forall h, v_hash ubits dbg h v1 = Ok (seq_feed h l1)).
Proof.
  intros T U ubits dbg b1 b2 b3 Hu Hb1 Hb2 Hb3 v1 v2 v3 l1 l2 l3 H1 H2 H3.
  destruct (v_iterates _ _ _ _ _ _ Hu Hb1 H1) as (I1 & Z1 & N1), (v_iterates _ _ _ _ _ _ Hu Hb2 H2) as (I2 & Z2 & N2),
    (v_iterates _ _ _ _ _ _ Hu Hb3 H3) as (I3 & Z3 & N3).
  split; [|split; [|split]].
  - intros teq. eapply eq_iterates; [exact I1|exact I2|exact Z1|]. unfold v_len in N1, N2. rewrite N1, N2, N.eqb_eq. lia.
  - intros c. eapply partial_cmp_iterates; eassumption.
  - intros c. eapply cmp_iterates; eassumption.
  - intros h. eapply hash_iterates; eassumption.
Qed.
Print Assumptions C28_vector_traits.

(** The laws of these functions: with a lawful element order the lexicographic order is a total
    order, [partial_cmp] agrees with it, [Equal] is exactly [==], [==] is an equivalence, and equal
    sequences are hashed alike. *)
Theorem C28_sequence_laws : forall (A : Type) (cmp : A -> A -> comparison), ord_laws cmp ->
  ord_laws (lex cmp) /\
  (forall s1 s2, plex (fun a b => Some (cmp a b)) s1 s2 = Some (lex cmp s1 s2)) /\
  (forall s1 s2, lex cmp s1 s2 = Eq <-> seq_equal (eq_of cmp) s1 s2) /\
  (forall (teq : A -> A -> bool), equivalence teq ->
     (forall s, seq_equal teq s s) /\
     (forall s1 s2, seq_equal teq s1 s2 -> seq_equal teq s2 s1) /\
     (forall s1 s2 s3, seq_equal teq s1 s2 -> seq_equal teq s2 s3 -> seq_equal teq s1 s3)) /\
  (forall (teq : A -> A -> bool) h s1 s2, feed_respects teq h -> seq_equal teq s1 s2 -> seq_feed h s1 = seq_feed h s2).
Proof.
  intros A cmp OL. split; [now apply lex_laws|]. split; [apply plex_lex|]. split; [apply lex_eq|].
  split; [intros teq; apply seq_equal_equiv|]. intros teq h s1 s2 Hr E. exact (seq_feed_respects A teq h Hr s1 s2 E).
Qed.
Print Assumptions C28_sequence_laws.

(** Two queues with the same contents and different layouts, and one that is smaller. *)
Definition ex_q1 : rqueue nat := mkQ (mkL [3] (Some 3) 1) (mkL [1; 2] (Some 2) 2).
Definition ex_q2 : rqueue nat := mkQ (mkL [3; 2; 1] (Some 1) 3) l_new.
Example C28_case :
  q_reached ex_q1 [1; 2; 3] /\ q_reached ex_q2 [1; 2; 3] /\
  q_eq Nat.eqb ex_q1 ex_q2 = Ok true /\ q_cmp Nat.compare ex_q1 ex_q2 = Ok Eq /\
  q_hash (fun n => [HLen n]) ex_q1 = q_hash (fun n => [HLen n]) ex_q2 /\
  q_cmp Nat.compare ex_q1 (q_from_iter [1; 3]) = Ok Lt /\
  q_partial_cmp (fun _ _ => None) ex_q1 (q_from_iter [1; 3]) = Ok None.
Proof.
  split; [|split; [|repeat split]].
  - exists [QFromIter [0; 1; 2]; QDeq; QEnq 3]. eexists. split; reflexivity.
  - exists [QEnq 1; QEnqMut 2; QEnq 3]. eexists. split; reflexivity.
Qed.

(** ** C29 for the sequences: what is fed to the hasher determines the sequence and where it ends,
    so collections hashed one after the other cannot be confused. *)
Theorem C29_sequence_feed_delimits : forall (A : Type) (teq : A -> A -> bool) (h : A -> feed), feed_delimits teq h ->
  forall s1 s2 r1 r2, seq_feed h s1 ++ r1 = seq_feed h s2 ++ r2 -> seq_equal teq s1 s2 /\ r1 = r2.
Proof. exact seq_feed_delimits. Qed.
Print Assumptions C29_sequence_feed_delimits.

Theorem C29_list_feed_delimits : forall (T : Type) (teq : T -> T -> bool) (h : T -> feed), feed_delimits teq h ->
  forall (l1 l2 : rlist T) s1 s2 x1 x2 r1 r2, l_reached l1 s1 -> l_reached l2 s2 ->
  l_hash h l1 = Ok x1 -> l_hash h l2 = Ok x2 -> x1 ++ r1 = x2 ++ r2 -> l_eq teq l1 l2 = Ok true /\ r1 = r2.
Proof.
  intros T teq h Hd l1 l2 s1 s2 x1 x2 r1 r2 H1 H2 E1 E2 E.
  destruct (C28_list_traits T l1 l2 s1 s2 H1 H2) as (He & _ & _ & Hh1). destruct (C28_list_traits T l2 l1 s2 s1 H2 H1) as (_ & _ & _ & Hh2).
  rewrite Hh1 in E1. rewrite Hh2 in E2. injection E1 as <-. injection E2 as <-.
  destruct (seq_feed_delimits T teq h Hd _ _ _ _ E) as [Hs Hr]. split; [|exact Hr].
  destruct (He teq) as (r & -> & Hr'). f_equal. tauto.
Qed.
Print Assumptions C29_list_feed_delimits.

Theorem C29_stack_feed_delimits : forall (T : Type) (teq : T -> T -> bool) (h : T -> feed), feed_delimits teq h ->
  forall (l1 l2 : rstack T) s1 s2 x1 x2 r1 r2, s_reached l1 s1 -> s_reached l2 s2 ->
  s_hash h l1 = Ok x1 -> s_hash h l2 = Ok x2 -> x1 ++ r1 = x2 ++ r2 -> s_eq teq l1 l2 = Ok true /\ r1 = r2.
Proof.
  intros T teq h Hd l1 l2 s1 s2 x1 x2 r1 r2 H1 H2 E1 E2 E.
  destruct (C28_stack_traits T l1 l2 s1 s2 H1 H2) as (He & _ & _ & Hh1). destruct (C28_stack_traits T l2 l1 s2 s1 H2 H1) as (_ & _ & _ & Hh2).
  rewrite Hh1 in E1. rewrite Hh2 in E2. injection E1 as <-. injection E2 as <-.
  destruct (seq_feed_delimits T teq h Hd _ _ _ _ E) as [Hs Hr]. split; [|exact Hr].
  destruct (He teq) as (r & -> & Hr'). f_equal. tauto.
Qed.
Print Assumptions C29_stack_feed_delimits.

Theorem C29_queue_feed_delimits : forall (T : Type) (teq : T -> T -> bool) (h : T -> feed), feed_delimits teq h ->
  forall (l1 l2 : rqueue T) s1 s2 x1 x2 r1 r2, q_reached l1 s1 -> q_reached l2 s2 ->
  q_hash h l1 = Ok x1 -> q_hash h l2 = Ok x2 -> x1 ++ r1 = x2 ++ r2 -> q_eq teq l1 l2 = Ok true /\ r1 = r2.
Proof.
  intros T teq h Hd l1 l2 s1 s2 x1 x2 r1 r2 H1 H2 E1 E2 E.
  destruct (C28_queue_traits T l1 l2 s1 s2 H1 H2) as (He & _ & _ & Hh1). destruct (C28_queue_traits T l2 l1 s2 s1 H2 H1) as (_ & _ & _ & Hh2).
  rewrite Hh1 in E1. rewrite Hh2 in E2. injection E1 as <-. injection E2 as <-.
  destruct (seq_feed_delimits T teq h Hd _ _ _ _ E) as [Hs Hr]. split; [|exact Hr].
  destruct (He teq) as (r & -> & Hr'). f_equal. tauto.
Qed.
Print Assumptions C29_queue_feed_delimits.

Theorem C29_vector_feed_delimits : forall (T : Type) (ubits : N) (dbg : bool) (b1 b2 : N),
  (8 <= ubits)%N -> (0 < b1 < ubits)%N -> (0 < b2 < ubits)%N ->
  forall (teq : T -> T -> bool) (h : T -> feed), feed_delimits teq h ->
  forall (l1 l2 : rvec T) s1 s2 x1 x2 r1 r2, vec_reached ubits dbg b1 l1 s1 -> vec_reached ubits dbg b2 l2 s2 ->
  v_hash ubits dbg h l1 = Ok x1 -> v_hash ubits dbg h l2 = Ok x2 -> x1 ++ r1 = x2 ++ r2 ->
  v_eq ubits dbg teq l1 l2 = Ok true /\ r1 = r2.
Proof.
  intros T ubits dbg b1 b2 Hu Hb1 Hb2 teq h Hd l1 l2 s1 s2 x1 x2 r1 r2 H1 H2 E1 E2 E.
  destruct (C28_vector_traits T T ubits dbg b1 b2 b1 Hu Hb1 Hb2 Hb1 l1 l2 l1 s1 s2 s1 H1 H2 H1) as (He & _ & _ & Hh1).
  destruct (C28_vector_traits T T ubits dbg b2 b1 b2 Hu Hb2 Hb1 Hb2 l2 l1 l2 s2 s1 s2 H2 H1 H2) as (_ & _ & _ & Hh2).
  rewrite Hh1 in E1. rewrite Hh2 in E2. injection E1 as <-. injection E2 as <-.
  destruct (seq_feed_delimits T teq h Hd _ _ _ _ E) as [Hs Hr]. split; [|exact Hr].
  destruct (He teq) as (r & -> & Hr'). f_equal. tauto.
Qed.
Print Assumptions C29_vector_feed_delimits.

(** A self-delimiting element feed; [1,2] then [3] is told apart from [1] then [2,3]. *)
Example C29_case : feed_delimits Nat.eqb (fun n => [HLen n]) /\
  l_hash (fun n => [HLen n]) (l_from_iter [1; 2]) = Ok [HLen 2; HLen 1; HLen 2] /\
  l_hash (fun n => [HLen n]) (l_from_iter [1]) = Ok [HLen 1; HLen 1] /\
  [HLen 2; HLen 1; HLen 2] ++ [HLen 1; HLen 3] <> [HLen 1; HLen 1] ++ [HLen 2; HLen 2; HLen 3].
Proof.
  split; [|repeat split; discriminate].
  intros a b r1 r2 E. cbn in E. injection E as -> ->. split; [apply Nat.eqb_refl|reflexivity].
Qed.

(** ** C32.  [write_str] is any sink (it may fail or panic at any point) and the element formatters
    are arbitrary; the actions performed are exactly the listed ones, in order, up to and including
    the first that fails. *)
Definition shown {W X} (write_str : string -> action W) (open close : string) (group : X -> list (action W)) (l : list X) : action W :=
  until_error (write_str open :: separated (write_str ", "%string) (map group l) ++ [write_str close]).
Definition entry_parts {W K V} (write_str : string -> action W) (kfmt : K -> action W) (vfmt : V -> action W) (kv : K * V) : list (action W) :=
  [kfmt (fst kv); write_str ": "%string; vfmt (snd kv)].

Theorem C32_sequence_display : forall (W T : Type) (write_str : string -> action W) (tfmt : T -> action W) (w : W),
  (forall l s, l_reached l s -> l_fmt write_str tfmt l w = shown write_str "[" "]" (fun x => [tfmt x]) s w) /\
  (forall st s, s_reached st s -> s_fmt write_str tfmt st w = shown write_str "Stack(" ")" (fun x => [tfmt x]) s w) /\
  (forall q s, q_reached q s -> q_fmt write_str tfmt q w = shown write_str "Queue(" ")" (fun x => [tfmt x]) s w) /\
  (forall ubits dbg bits v s, (8 <= ubits)%N -> (0 < bits < ubits)%N -> vec_reached ubits dbg bits v s ->
     v_fmt write_str ubits dbg tfmt v w = shown write_str "[" "]" (fun x => [tfmt x]) s w).
Proof.
  intros W T write_str tfmt w. pose proof (fmt_one T tfmt) as F. split; [|split; [|split]].
  - intros l s H. apply l_reached_rep in H. destruct (l_iterates _ _ _ H) as (I & Z). eapply fmt_with_ok; [exact F|exact I|exact Z].
  - intros l s H. apply s_reached_rep in H. destruct (l_iterates _ _ _ H) as (I & Z). eapply fmt_with_ok; [exact F|exact I|exact Z].
  - intros l s H. apply q_reached_rep in H. destruct (q_iterates _ _ _ H) as (I & Z). eapply fmt_with_ok; [exact F|exact I|exact Z].
  - intros ubits dbg bits v s Hu Hb H. destruct (v_iterates _ _ _ _ _ _ Hu Hb H) as (I & Z & _). eapply fmt_with_ok; [exact F|exact I|exact Z].
Qed.
Print Assumptions C32_sequence_display.

Theorem C32_hash_display : forall (W K V Q : Type) (ubits : N) (dbg : bool)
  (keq : K -> K -> bool) (borrow : K -> Q) (qeq : Q -> Q -> bool) (hash : K -> N) (qhash : Q -> N),
  (ubits <= 64)%N -> key_laws keq borrow qeq -> hash_laws borrow qeq hash qhash ->
  forall (write_str : string -> action W) (kfmt : K -> action W) (vfmt : V -> action W) (fuel : nat) (degree : N),
  (forall (m : hmap K V) fm, hm_reached ubits dbg keq borrow qeq hash qhash fuel degree m fm ->
     exists l, hm_entries m = Ok l /\ Permutation l fm /\
       forall w, hm_fmt write_str kfmt vfmt m w = shown write_str "{" "}" (entry_parts write_str kfmt vfmt) l w) /\
  (forall (m : hset K) s, hs_reached ubits dbg keq borrow qeq hash qhash fuel degree m s ->
     exists l, hs_elems m = Ok l /\ Permutation l s /\
       forall w, hs_fmt write_str kfmt m w = shown write_str "{" "}" (fun x => [kfmt x]) l w).
Proof.
  intros W K V Q ubits dbg keq borrow qeq hash qhash Hub KL HL write_str kfmt vfmt fuel degree. split.
  - intros m fm H. destruct (hm_iterates _ _ _ _ _ _ _ _ _ _ _ _ _ _ Hub KL HL H) as (l & E & Hp & I & Z).
    exists l. split; [exact E|]. split; [exact Hp|]. intros w. eapply fmt_with_ok; [apply fmt_entry_ok|exact I|exact Z].
  - intros m fm H. destruct (hs_iterates _ _ _ _ _ _ _ _ _ _ _ _ _ Hub KL HL H) as (l & E & Hp & I & Z).
    exists l. split; [exact E|]. split; [exact Hp|]. intros w. eapply fmt_with_ok; [apply fmt_one|exact I|exact Z].
Qed.
Print Assumptions C32_hash_display.

(** For the red-black trees the listing is the ascending one. *)
Theorem C32_rb_display : forall (W K V Q : Type) (dbg : bool)
  (kcmp : K -> K -> comparison) (borrow : K -> Q) (qcmp : Q -> Q -> comparison),
  ord_laws qcmp -> borrow_agrees kcmp borrow qcmp ->
  forall (write_str : string -> action W) (kfmt : K -> action W) (vfmt : V -> action W),
  (forall (m : rbmap K V) fm l, rb_reached dbg kcmp borrow qcmp m fm -> Permutation l fm -> sorted kcmp l ->
     forall w, rb_fmt write_str kcmp kfmt vfmt m w = shown write_str "{" "}" (entry_parts write_str kfmt vfmt) l w) /\
  (forall (m : rset K) s l, rs_reached dbg kcmp borrow qcmp m s -> Permutation l s -> StronglySorted (fun a b => kcmp a b = Lt) l ->
     forall w, rs_fmt write_str kcmp kfmt m w = shown write_str "{" "}" (fun x => [kfmt x]) l w).
Proof.
  intros W K V Q dbg kcmp borrow qcmp OL KB write_str kfmt vfmt. pose proof (ord_k kcmp borrow qcmp OL KB) as OK. split.
  - intros m fm l H Hp Hs w. apply rb_reached_rep in H; auto. destruct (rb_iterates _ _ _ _ _ OK H) as (I & Z).
    assert (El : l = elems (rb_root m)).
    { apply (sorted_perm_unique K V kcmp); auto; [apply H|]. destruct H as (_ & Hp' & _). rewrite Hp. now symmetry. }
    rewrite El. eapply fmt_with_ok; [apply fmt_entry_ok|exact I|exact Z].
  - intros m s l H Hp Hs w. apply rs_reached_rep in H; auto. destruct (rs_iterates _ _ _ _ OK H) as (I & Z).
    assert (El : l = elts m).
    { eapply SS_perm_unique with (R := fun a b => kcmp a b = Lt); [| |exact Hs|exact (elts_sorted kcmp OK m s H)|].
      - intros a E. pose proof (ol_sym _ OK a a) as E'. rewrite E in E'. discriminate.
      - intros a b c. apply (ol_trans _ OK).
      - rewrite Hp. symmetry. exact (elts_perm kcmp OK m s H). }
    rewrite El. eapply fmt_with_ok; [apply fmt_one|exact I|exact Z].
Qed.
Print Assumptions C32_rb_display.

(** Into a sink that never fails the text is the one expected. *)
Theorem C32_text : forall (X : Type) (open close : string) (show : X -> list string) (l : list X) (w : string),
  shown to_string open close (fun x => map to_string (show x)) l w
  = Ok ((w ++ text open close (map (fun x => String.concat "" (show x)) l))%string, true).
Proof. intros. apply fmt_text. Qed.
Print Assumptions C32_text.

Definition ex_show (n : nat) : string := if Nat.eqb n 1 then "one"%string else "many"%string.
Example C32_case :
  q_fmt to_string (fun n => to_string (ex_show n)) ex_q1 ""%string = Ok ("Queue(one, many, many)"%string, true) /\
  rb_fmt to_string Nat.compare (fun n => to_string (ex_show n)) (fun n => to_string (ex_show n)) (rb_new (K := nat) (V := nat)) ""%string = Ok ("{}"%string, true) /\
  (* a sink that fails at the second separator: nothing is written after that *)
  q_fmt (fun s w => Ok ((w ++ s)%string, Nat.ltb (String.length w) 12)) (fun n => to_string (ex_show n)) ex_q1 ""%string
    = Ok ("Queue(one, many, "%string, false).
Proof. repeat split. Qed.
