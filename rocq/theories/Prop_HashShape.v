(** Property C46: the trie of a HashTrieMap is determined by its entries. *)
From Coq Require Import List NArith Arith Bool Lia Permutation Sorted.
From Verif Require Import Base Spec SpecMap Sim ListModel ListProofs SparseModel SparseProofs HashModel HashProofs HashHist HashExtra
  HashExtraProofs Prop_Hash.
Import ListNotations.
Local Open Scope N_scope.

(** The same trie but for the order inside collision buckets: branches with the same occupied
    positions and the same children, leaves with the same entries. *)
Inductive same_trie {K V} : hnode K V -> hnode K V -> Prop :=
| st_branch : forall s1 s2, sa_bitmap s1 = sa_bitmap s2 -> Forall2 same_trie (sa_array s1) (sa_array s2) ->
    same_trie (HBranch s1) (HBranch s2)
| st_single : forall e, same_trie (HLeaf (BSingle e)) (HLeaf (BSingle e))
| st_collision : forall l1 l2, Permutation (l_head l1) (l_head l2) -> l_len l1 = l_len l2 ->
    same_trie (HLeaf (BCollision l1)) (HLeaf (BCollision l2)).

Section Shape.
Variable ubits b : N.
Context {K V : Type}.
Notation entry := (hentry K V).
Notation node := (hnode K V).

Lemma filter_all : forall A (p : A -> bool) l, (forall a, In a l -> p a = true) -> filter p l = l.
Proof.
  intros A p. induction l as [|a l IH]; intros H; cbn [filter]; [reflexivity|].
  rewrite (H a (or_introl eq_refl)). f_equal. apply IH. intros x Hx. apply H. now right.
Qed.
Lemma filter_none : forall A (p : A -> bool) l, (forall a, In a l -> p a = false) -> filter p l = [].
Proof.
  intros A p. induction l as [|a l IH]; intros H; cbn [filter]; [reflexivity|].
  rewrite (H a (or_introl eq_refl)). apply IH. intros x Hx. apply H. now right.
Qed.

Lemma chl_dig_above : forall R (dig : entry -> N) al es i, @chl K V true R dig al es ->
  (forall j, In j (map fst al) -> i < j) -> forall e, In e es -> i < dig e.
Proof.
  intros R dig al es i H. induction H as [|j c ec al rest Hr Hne Hd Hb2 Hrest IH]; intros Hi e He; [destruct He|].
  apply in_app_iff in He as [He|He].
  - rewrite (Hd e He). apply Hi. now left.
  - apply IH; [|assumption]. intros k Hk. apply Hi. now right.
Qed.

Definition big (c : node) (es : list entry) : Prop := is_branch c = true -> (2 <= length es)%nat.

Lemma chl_same : forall (R : node -> list entry -> Prop) (dig : entry -> N),
  (forall c1 c2 e1 e2, R c1 e1 -> R c2 e2 -> Permutation e1 e2 -> big c1 e1 -> big c2 e2 -> same_trie c1 c2) ->
  forall al1 es1, @chl K V true R dig al1 es1 -> forall al2 es2, @chl K V true R dig al2 es2 ->
  StronglySorted N.lt (map fst al1) -> StronglySorted N.lt (map fst al2) -> Permutation es1 es2 ->
  map fst al1 = map fst al2 /\ Forall2 same_trie (map snd al1) (map snd al2).
Proof.
  intros R dig HR al1 es1 H1. induction H1 as [|i c ec al rest Hr Hne Hd Hb2 Hrest IH]; intros al2 es2 H2 S1 S2 Hp.
  - apply Permutation_nil in Hp. destruct H2 as [|i' c' ec' al' rest' Hr' Hne' Hd' Hb2' Hrest']; [repeat split; constructor|].
    apply app_eq_nil in Hp as [Hp _]. congruence.
  - destruct H2 as [|i' c' ec' al' rest' Hr' Hne' Hd' Hb2' Hrest'].
    { apply Permutation_sym, Permutation_nil, app_eq_nil in Hp as [? _]. congruence. }
    cbn [map fst snd] in *. inversion S1 as [|? ? S1' F1]; subst. inversion S2 as [|? ? S2' F2]; subst.
    rewrite Forall_forall in F1, F2.
    pose proof (chl_dig_above R dig al rest i Hrest F1) as A1. pose proof (chl_dig_above R dig al' rest' i' Hrest' F2) as A2.
    assert (Hii : i = i').
    { destruct (N.lt_trichotomy i i') as [Hlt|[E|Hlt]]; [exfalso|exact E|exfalso].
      - destruct ec as [|e ec]; [congruence|]. pose proof (Hd e (or_introl eq_refl)) as De.
        assert (He : In e (ec' ++ rest')) by (eapply Permutation_in; [exact Hp|now left]).
        apply in_app_iff in He as [He|He]; [rewrite (Hd' e He) in De|specialize (A2 e He)]; lia.
      - destruct ec' as [|e ec']; [congruence|]. pose proof (Hd' e (or_introl eq_refl)) as De.
        assert (He : In e (ec ++ rest)) by (eapply Permutation_in; [symmetry; exact Hp|now left]).
        apply in_app_iff in He as [He|He]; [rewrite (Hd e He) in De|specialize (A1 e He)]; lia. }
    subst i'.
    assert (Hf : forall p : entry -> bool, Permutation (filter p ec ++ filter p rest) (filter p ec' ++ filter p rest')).
    { intros p. rewrite <- !filter_app. now apply Permutation_filter. }
    assert (Pe : Permutation ec ec').
    { specialize (Hf (fun e => dig e =? i)). rewrite (filter_all _ _ ec), (filter_all _ _ ec'), (filter_none _ _ rest), (filter_none _ _ rest') in Hf.
      - now rewrite !app_nil_r in Hf.
      - intros e He. apply N.eqb_neq. specialize (A2 e He). lia.
      - intros e He. apply N.eqb_neq. specialize (A1 e He). lia.
      - intros e He. apply N.eqb_eq. auto.
      - intros e He. apply N.eqb_eq. auto. }
    assert (Pr : Permutation rest rest').
    { specialize (Hf (fun e => negb (dig e =? i))). rewrite (filter_none _ _ ec), (filter_none _ _ ec'), (filter_all _ _ rest), (filter_all _ _ rest') in Hf.
      - exact Hf.
      - intros e He. apply negb_true_iff, N.eqb_neq. specialize (A2 e He). lia.
      - intros e He. apply negb_true_iff, N.eqb_neq. specialize (A1 e He). lia.
      - intros e He. apply negb_false_iff, N.eqb_eq. auto.
      - intros e He. apply negb_false_iff, N.eqb_eq. auto. }
    destruct (IH al' rest' Hrest' S1' S2' Pr) as (E1 & E2). split; [now rewrite E1|].
    constructor; [|exact E2]. apply (HR c c' ec ec'); auto; unfold big; auto.
Qed.

Lemma branch_same : forall r d (s1 s2 : sarr node) (es1 es2 : list entry),
  (forall (c1 c2 : node) (e1 e2 : list entry), hrep ubits b r (S d) c1 e1 -> hrep ubits b r (S d) c2 e2 -> Permutation e1 e2 -> big c1 e1 -> big c2 e2 -> same_trie c1 c2) ->
  hrep ubits b (S r) d (HBranch s1) es1 -> hrep ubits b (S r) d (HBranch s2) es2 -> Permutation es1 es2 ->
  same_trie (HBranch s1) (HBranch s2).
Proof.
  intros r d s1 s2 es1 es2 IH (al1 & (B1 & A1 & S1 & _) & C1) (al2 & (B2 & A2 & S2 & _) & C2) Hp.
  destruct (chl_same _ _ IH al1 es1 C1 al2 es2 C2 S1 S2 Hp) as (E1 & E2).
  constructor; [congruence|]. now rewrite A1, A2.
Qed.

Lemma node_same : forall r d (n1 n2 : node) (es1 es2 : list entry), hrep ubits b r d n1 es1 -> hrep ubits b r d n2 es2 -> Permutation es1 es2 ->
  big n1 es1 -> big n2 es2 -> same_trie n1 n2.
Proof.
  induction r as [|r IH]; intros d n1 n2 es1 es2 H1 H2 Hp B1 B2; unfold big in *;
    pose proof (Permutation_length Hp) as Hl;
    destruct n1 as [s1|[e1|l1]], n2 as [s2|[e2|l2]]; try (cbn [hrepg] in H1, H2; cbn [is_branch] in B1, B2;
      repeat match goal with H : _ /\ _ |- _ => destruct H | H : true = true -> _ |- _ => specialize (H eq_refl) end;
      subst; cbn [length] in *; try contradiction; try discriminate; lia).
  - cbn [hrepg] in H1, H2. subst. apply Permutation_length_1 in Hp. subst. constructor.
  - destruct H1 as (_ & (E1 & L1) & _), H2 as (_ & (E2 & L2) & _). constructor; [now rewrite E1, E2|]. unfold l_len. lia.
  - eapply branch_same; eauto.
  - cbn [hrepg] in H1, H2. subst. apply Permutation_length_1 in Hp. subst. constructor.
Qed.

Lemma nodup_l : forall A (l1 l2 : list A), NoDup (l1 ++ l2) -> NoDup l1.
Proof.
  induction l1 as [|a l1 IH]; intros l2 H; [constructor|]. inversion H as [|? ? Hx Hn]; subst.
  constructor; [|eapply IH; eassumption]. intros Hi. apply Hx. apply in_app_iff. now left.
Qed.
Lemma nodup_r : forall A (l1 l2 : list A), NoDup (l1 ++ l2) -> NoDup l2.
Proof. induction l1 as [|a l1 IH]; intros l2 H; [exact H|]. inversion H; auto. Qed.

Lemma same_entries : forall root d (n1 n2 : node), same_trie n1 n2 -> doc_inv b root d n1 ->
  (forall e e', In e (n_entries n1) -> In e' (n_entries n1) -> e_hash e = e_hash e' -> e = e') -> NoDup (n_entries n1) ->
  n_entries n1 = n_entries n2.
Proof.
  fix IH 5. intros root d n1 n2 H. destruct H as [s1 s2 _ H|e|l1 l2 Hp _]; intros Hi Hu Hn.
  - inversion Hi as [| |? ? ? _ _ Hc]; subst. cbn [n_entries] in *. revert Hc Hu Hn.
    induction H as [|c1 c2 a1 a2 Hs Ha IHa]; intros Hc Hu Hn; [reflexivity|].
    cbn [map concat] in *. f_equal.
    + apply (IH false (S d) c1 c2 Hs).
      * apply Hc. now left.
      * intros e e' He He'. apply Hu; apply in_app_iff; now left.
      * eapply nodup_l; eauto.
    + apply IHa.
      * intros c Hx. apply Hc. now right.
      * intros e e' He He'. apply Hu; apply in_app_iff; now right.
      * eapply nodup_r; eauto.
  - reflexivity.
  - exfalso. inversion Hi as [|? ? ? _ Hlen Heq|]; subst. cbn [n_entries] in *.
    destruct (l_head l1) as [|e [|e' l]]; cbn [length] in Hlen; try lia.
    assert (e = e') by (apply Hu; cbn [In]; auto; apply Heq; cbn [In]; auto). subst e'.
    inversion Hn as [|? ? Hx _]. apply Hx. now left.
Qed.
End Shape.

(** Entries with equal keys, values and hashes. *)
Lemma kv_perm : forall K V (hash : K -> N) (es1 es2 : list (hentry K V)), hash_ok hash es1 -> hash_ok hash es2 ->
  Permutation (map kv es1) (map kv es2) -> Permutation es1 es2.
Proof.
  intros K V hash es1 es2 H1 H2 Hp.
  assert (E : forall es : list (hentry K V), hash_ok hash es -> map (fun x => mkE (fst x) (snd x) (hash (fst x))) (map kv es) = es).
  { induction es as [|[k v h] es IH]; intros H; [reflexivity|]. cbn [map]. f_equal.
    - cbn [kv fst snd e_key e_val]. f_equal. symmetry. exact (H (mkE k v h) (or_introl eq_refl)).
    - apply IH. intros e He. apply H. now right. }
  rewrite <- (E es1 H1), <- (E es2 H2). now apply Permutation_map.
Qed.

Lemma entries_listing : forall K V Q ubits (dbg : bool) b keq (borrow : K -> Q) qeq hash qhash (fuel : nat) (m : hmap K V) fm,
  0 < b -> 2 ^ b <= ubits -> ubits <= 64 -> key_laws keq borrow qeq -> hash_laws borrow qeq hash qhash -> (2 * D b < fuel)%nat ->
  hm_rep ubits b keq hash m fm -> hm_entries m = Ok (map kv (n_entries (hm_root m))).
Proof.
  intros K V Q ubits dbg b keq borrow qeq hash qhash fuel m fm Hb Hd Hub KL HL Hf H.
  destruct (hi_new_rep ubits dbg b Hb Hd Hub keq borrow qeq hash qhash KL HL fuel Hf m fm H) as (l & es & Hi & El & R & Hp).
  rewrite <- (hrep_entries ubits b _ _ _ _ R), <- El. unfold hm_entries.
  eapply sim_collect; [exact (iter_sim_sim0 _ _ _ _ _ (hi_sim (strict:=true) ubits dbg b Hb Hd Hub keq borrow qeq hash qhash KL HL fuel Hf))|exact Hi|].
  destruct H as (_ & _ & _ & _ & _ & Hs & _). apply Permutation_length in Hp. lia.
Qed.

(** ** C46 *)
(** Two maps of one degree and hasher with the same entries, whatever histories made them: the
    same trie.  Only the root of a map with one entry can differ: it is a branch or the leaf
    itself. *)
Theorem C46_hash_map_canonical : forall (K V Q : Type) (ubits : N) (dbg : bool)
  (keq : K -> K -> bool) (borrow : K -> Q) (qeq : Q -> Q -> bool) (hash : K -> N) (qhash : Q -> N),
  ubits <= 64 -> key_laws keq borrow qeq -> hash_laws borrow qeq hash qhash ->
  forall (fuel1 fuel2 : nat) (degree : N) (m1 m2 : hmap K V) (f1 f2 : fmap K V),
  hm_reached ubits dbg keq borrow qeq hash qhash fuel1 degree m1 f1 ->
  hm_reached ubits dbg keq borrow qeq hash qhash fuel2 degree m2 f2 ->
  Permutation f1 f2 -> length f1 <> 1%nat -> same_trie (hm_root m1) (hm_root m2).
Proof.
  intros K V Q ubits dbg keq borrow qeq hash qhash Hub KL HL fuel1 fuel2 degree m1 m2 f1 f2 H1 H2 Hp Hl.
  destruct (reached_rep _ _ _ _ _ _ _ _ _ _ _ _ _ _ Hub KL HL H1) as (b & Hb & -> & Hd & _ & (es1 & R1 & O1 & P1 & _)).
  destruct (reached_rep _ _ _ _ _ _ _ _ _ _ _ _ _ _ Hub KL HL H2) as (b2 & _ & Eb & _ & _ & (es2 & R2 & O2 & P2 & _)).
  assert (b2 = b) by (apply N.pow_inj_r in Eb; [congruence|lia]). subst b2.
  assert (Pe : Permutation es1 es2).
  { apply (kv_perm K V hash); auto. rewrite P1, Hp. now symmetry. }
  assert (L1 : length es1 = length f1) by (rewrite <- (Permutation_length P1); now rewrite map_length).
  pose proof (Permutation_length Pe) as L2.
  pose proof (D_pos ubits dbg b Hb Hd Hub) as HD. destruct (D b) as [|r] eqn:ED; [lia|].
  destruct (hm_root m1) as [s1|[e1|l1]] eqn:Er1, (hm_root m2) as [s2|[e2|l2]] eqn:Er2;
    try (exfalso; cbn [hrepg] in R1, R2; try destruct R1 as (? & _); try destruct R2 as (? & _); subst; cbn [length] in *; try discriminate; lia).
  apply (branch_same ubits b r 0 s1 s2 es1 es2); auto.
  intros c1 c2 x1 x2. apply node_same.
Qed.
Print Assumptions C46_hash_map_canonical.

(** Hence the order of iteration is a function of the entries if no two keys of the map have
    the same 64-bit hash. *)
Theorem C46_hash_map_iteration_canonical : forall (K V Q : Type) (ubits : N) (dbg : bool)
  (keq : K -> K -> bool) (borrow : K -> Q) (qeq : Q -> Q -> bool) (hash : K -> N) (qhash : Q -> N),
  ubits <= 64 -> key_laws keq borrow qeq -> hash_laws borrow qeq hash qhash ->
  forall (fuel1 fuel2 : nat) (degree : N) (m1 m2 : hmap K V) (f1 f2 : fmap K V),
  hm_reached ubits dbg keq borrow qeq hash qhash fuel1 degree m1 f1 ->
  hm_reached ubits dbg keq borrow qeq hash qhash fuel2 degree m2 f2 ->
  Permutation f1 f2 ->
  (forall x y, In x f1 -> In y f1 -> hash (fst x) = hash (fst y) -> x = y) ->
  exists l, hm_entries m1 = Ok l /\ hm_entries m2 = Ok l.
Proof.
  intros K V Q ubits dbg keq borrow qeq hash qhash Hub KL HL fuel1 fuel2 degree m1 m2 f1 f2 H1 H2 Hp Hinj.
  pose proof (C14_hash_map_invariants K V Q ubits dbg keq borrow qeq hash qhash Hub KL HL fuel1 degree m1 f1 H1) as (Hdoc & _).
  pose proof (C46_hash_map_canonical K V Q ubits dbg keq borrow qeq hash qhash Hub KL HL fuel1 fuel2 degree m1 m2 f1 f2 H1 H2 Hp) as Hs.
  destruct (reached_rep _ _ _ _ _ _ _ _ _ _ _ _ _ _ Hub KL HL H1) as (b & Hb & -> & Hd & Hf1 & Hr1).
  destruct (reached_rep _ _ _ _ _ _ _ _ _ _ _ _ _ _ Hub KL HL H2) as (b2 & Hb2 & Eb & Hd2 & Hf2 & Hr2).
  assert (b2 = b) by (apply N.pow_inj_r in Eb; [congruence|lia]). subst b2. clear Eb.
  rewrite (entries_listing K V Q ubits dbg b keq borrow qeq hash qhash fuel1 m1 f1 Hb Hd Hub KL HL Hf1 Hr1).
  rewrite (entries_listing K V Q ubits dbg b keq borrow qeq hash qhash fuel2 m2 f2 Hb Hd Hub KL HL Hf2 Hr2).
  destruct Hr1 as (es1 & R1 & O1 & P1 & U1 & _). destruct Hr2 as (es2 & R2 & O2 & P2 & _).
  rewrite N.log2_pow2 in Hdoc by lia.
  assert (Ee : n_entries (hm_root m1) = n_entries (hm_root m2)).
  { destruct (Nat.eq_dec (length f1) 1) as [L|L].
    - rewrite <- (hrep_entries ubits b _ _ _ _ R1), <- (hrep_entries ubits b _ _ _ _ R2).
      assert (Pe : Permutation es1 es2) by (apply (kv_perm K V hash); auto; rewrite P1, Hp; now symmetry).
      assert (L1 : length es1 = 1%nat) by (rewrite <- L, <- (Permutation_length P1); now rewrite map_length).
      destruct es1 as [|e1 [|]]; try discriminate. apply Permutation_length_1_inv in Pe. now subst.
    - apply (same_entries b true 0 _ _ (Hs L) Hdoc).
      + rewrite <- (hrep_entries ubits b _ _ _ _ R1). intros e e' He He' Eh.
        assert (Ek : kv e = kv e').
        { apply Hinj; [eapply Permutation_in; [exact P1|now apply in_map]..|].
          cbn [kv fst]. rewrite <- (O1 e He), <- (O1 e' He'). exact Eh. }
        destruct e as [k v h], e' as [k' v' h']. cbn [e_hash] in Eh. unfold kv in Ek. cbn [e_key e_val] in Ek. congruence.
      + rewrite <- (hrep_entries ubits b _ _ _ _ R1). apply (NoDup_map_inv kv). eapply Permutation_NoDup; [symmetry; exact P1|].
        clear - U1 KL. induction U1 as [|x f Hx U IH]; constructor; [|exact IH]. intros Hin.
        rewrite Forall_forall in Hx. specialize (Hx x Hin). rewrite (kl_borrow _ _ _ KL), (kl_refl _ _ _ KL) in Hx. discriminate. }
  rewrite Ee. eauto.
Qed.
Print Assumptions C46_hash_map_iteration_canonical.

(** With a collision the order can depend on the history: it is unspecified. *)
Theorem C46_collision_order_refuted : exists (m1 m2 : hmap N N) f1 f2,
  hm_reached 64 true N.eqb (fun k => k) N.eqb (fun _ => 5) (fun _ => 5) 129 4 m1 f1 /\
  hm_reached 64 true N.eqb (fun k => k) N.eqb (fun _ => 5) (fun _ => 5) 129 4 m2 f2 /\
  Permutation f1 f2 /\ hm_entries m1 = Ok [(2, 20); (1, 10)] /\ hm_entries m2 = Ok [(1, 10); (2, 20)].
Proof.
  eexists _, _, _, _. split; [|split; [|split]].
  - split; [exists 2; repeat split; discriminate|]. split; [vm_compute; repeat constructor|].
    eexists _, [MInsert 1 10; MInsert 2 20], _. split; [reflexivity|]. split; [vm_compute; reflexivity|reflexivity].
  - split; [exists 2; repeat split; discriminate|]. split; [vm_compute; repeat constructor|].
    eexists _, [MInsert 2 20; MInsert 1 10], _. split; [reflexivity|]. split; [vm_compute; reflexivity|reflexivity].
  - apply perm_swap.
  - split; vm_compute; reflexivity.
Qed.
Print Assumptions C46_collision_order_refuted.

(** Two histories of one map, with a removal that merges branches; and the one-entry map with
    its two roots. *)
Definition ex_h (k : N) : N := k mod 2 ^ 64.
Example C46_example : exists (m1 m2 : hmap N N) f1 f2,
  hm_reached 64 true N.eqb (fun k => k) N.eqb ex_h ex_h 129 4 m1 f1 /\
  hm_reached 64 true N.eqb (fun k => k) N.eqb ex_h ex_h 129 4 m2 f2 /\
  Permutation f1 f2 /\ length f1 = 3%nat /\ hm_entries m1 = Ok [(4, 40); (1, 10); (2, 20)].
Proof.
  eexists _, _, _, _. split; [|split; [|split]].
  - split; [exists 2; repeat split; discriminate|]. split; [vm_compute; repeat constructor|].
    eexists _, [MInsert 1 10; MInsert 2 20; MInsert 4 40], _. split; [reflexivity|]. split; [vm_compute; reflexivity|reflexivity].
  - split; [exists 2; repeat split; discriminate|]. split; [vm_compute; repeat constructor|].
    eexists _, [MInsert 4 40; MInsert 1029 3; MInsert 5 7; MInsert 1 10; MInsert 2 20; MRemoveMut 5; MRemoveMut 1029], _.
    split; [reflexivity|]. split; [vm_compute; reflexivity|reflexivity].
  - vm_compute. apply perm_trans with [(4, 40); (2, 20); (1, 10)]; [reflexivity|].
    apply perm_trans with [(2, 20); (4, 40); (1, 10)]; [apply perm_swap|]. apply perm_skip, perm_swap.
  - split; vm_compute; reflexivity.
Qed.
Example C46_one_entry_roots : exists (m1 m2 : hmap N N) s,
  hm_reached 64 true N.eqb (fun k => k) N.eqb ex_h ex_h 129 4 m1 [(1, 10)] /\
  hm_reached 64 true N.eqb (fun k => k) N.eqb ex_h ex_h 129 4 m2 [(1, 10)] /\
  hm_root m1 = HBranch s /\ hm_root m2 = HLeaf (BSingle (mkE 1 10 1)).
Proof.
  eexists _, _, _. split; [|split; [|split]].
  - split; [exists 2; repeat split; discriminate|]. split; [vm_compute; repeat constructor|].
    eexists _, [MInsert 1 10], _. split; [reflexivity|]. split; [vm_compute; reflexivity|reflexivity].
  - split; [exists 2; repeat split; discriminate|]. split; [vm_compute; repeat constructor|].
    eexists _, [MInsert 1 10; MInsert 2 20; MRemove 2], _. split; [reflexivity|]. split; [vm_compute; reflexivity|reflexivity].
  - reflexivity.
  - reflexivity.
Qed.
