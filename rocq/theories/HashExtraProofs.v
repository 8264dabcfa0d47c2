(** Equality, sets, parallel iteration and documented invariants of the hash trie. *)
From Coq Require Import List NArith Arith Bool Lia Permutation.
From Verif Require Import Base Spec SpecMap Sim ListModel ListProofs SparseModel SparseProofs HashModel HashProofs HashHist HashExtra.
Import ListNotations.

(** The entries under a node, from left to right. *)
Fixpoint n_entries {K V} (n : hnode K V) : list (hentry K V) :=
  match n with
  | HBranch s => concat (map n_entries (sa_array s))
  | HLeaf (BSingle e) => [e]
  | HLeaf (BCollision l) => l_head l
  end.

(** The documented invariants (hash_trie_map/mod.rs 175-182): only the root may have no
    children; a collision exists only where the hash is exhausted, and has at least two
    entries, all with the same hash; a non-root branch has at least two entries under it;
    branches exist only where the hash is not exhausted. *)
Inductive doc_inv {K V} (b : N) : bool -> nat -> hnode K V -> Prop :=
| di_single : forall root d e, doc_inv b root d (HLeaf (BSingle e))
| di_coll : forall root d l,
    (64 <= N.of_nat d * b)%N -> (2 <= length (l_head l))%nat ->
    (forall e e', In e (l_head l) -> In e' (l_head l) -> e_hash e = e_hash e') ->
    doc_inv b root d (HLeaf (BCollision l))
| di_branch : forall root d s,
    (N.of_nat d * b < 64)%N ->
    (root = false -> sa_array s <> [] /\ (2 <= length (n_entries (HBranch s)))%nat) ->
    (forall c, In c (sa_array s) -> doc_inv b false (S d) c) ->
    doc_inv b root d (HBranch s).

Lemma all_m_ok : forall A (p : A -> res bool) (f : A -> bool) l,
  (forall a, In a l -> p a = Ok (f a)) -> all_m p l = Ok (forallb f l).
Proof.
  intros A p f. induction l as [|a l IH]; intros H; simpl; [reflexivity|].
  rewrite (H a (or_introl eq_refl)). simpl. destruct (f a); [|reflexivity].
  simpl. apply IH. intros x Hx. apply H. now right.
Qed.

Lemma forallb_perm : forall A (f : A -> bool) l l', Permutation l l' -> forallb f l = forallb f l'.
Proof.
  intros A f l l' H. induction H; simpl; try congruence.
  destruct (f x), (f y); reflexivity.
Qed.

(** ** Finite maps with distinct keys *)
Section Fin.
Context {K V : Type}.
Variable keq : K -> K -> bool.
Hypothesis KL : key_laws keq (fun k => k) keq.
Notation lookup k m := (find (fun x => keq (fst x) k) m).

Lemma keq_cong : forall a c k, keq a c = true -> keq a k = keq c k.
Proof. intros a c k H. exact (keq_qeq keq (fun k => k) keq KL a c k H). Qed.
Lemma lookup_cong : forall (m : fmap K V) k k', keq k k' = true -> lookup k m = lookup k' m.
Proof.
  intros m k k' H. apply find_ext_in. intros x _.
  rewrite (keq_sym keq _ keq KL (fst x) k), (keq_sym keq _ keq KL (fst x) k'). now apply keq_cong.
Qed.
Lemma lookup_perm : forall (m m' : fmap K V) k, Permutation m m' -> unique_keys keq m ->
  lookup k m = lookup k m'.
Proof. intros m m' k H Hu. apply find_perm; [assumption|]. exact (unique_uniq_key keq _ keq KL m k Hu). Qed.
Lemma lookup_in : forall (m : fmap K V) a, unique_keys keq m -> In a m -> lookup (fst a) m = Some a.
Proof.
  intros m a Hu Hin. apply in_split in Hin as (l1 & l2 & ->).
  rewrite (lookup_perm _ (a :: l1 ++ l2)); [|symmetry; apply Permutation_middle|assumption].
  simpl. now rewrite (keq_refl keq _ keq KL).
Qed.

Lemma inject_length : forall (m1 m2 : fmap K V), unique_keys keq m1 -> unique_keys keq m2 ->
  (forall a, In a m1 -> lookup (fst a) m2 <> None) -> (length m1 <= length m2)%nat.
Proof.
  induction m1 as [|a m1 IH]; intros m2 H1 H2 H; [simpl; lia|].
  inversion H1 as [|? ? Ha H1']; subst. rewrite Forall_forall in Ha.
  set (m2' := filter (fun x => negb (keq (fst x) (fst a))) m2).
  assert (Hl : length m2' = (length m2 - 1)%nat).
  { unfold m2'. rewrite (filter_len_uniq (fun x => keq (fst x) (fst a))) by (exact (unique_uniq_key keq _ keq KL m2 _ H2)).
    specialize (H a (or_introl eq_refl)). destruct (lookup (fst a) m2); [reflexivity|congruence]. }
  assert (Hpos : (1 <= length m2)%nat).
  { specialize (H a (or_introl eq_refl)). destruct m2; [simpl in H; congruence|simpl; lia]. }
  assert (Hle : (length m1 <= length m2')%nat); [|simpl; lia].
  apply IH; [assumption|now apply FOP_filter|]. intros c Hc Hn.
  specialize (H c (or_intror Hc)). destruct (lookup (fst c) m2) as [x|] eqn:E; [|congruence].
  apply find_some in E as [Hin E]. apply (List.find_none (fun x => keq (fst x) (fst c)) m2') with (x := x) in Hn.
  - congruence.
  - apply filter_In. split; [assumption|]. specialize (Ha c Hc).
    rewrite (keq_cong _ _ (fst a) E), (keq_sym keq _ keq KL), Ha. reflexivity.
Qed.

Lemma inject_rev : forall (m1 m2 : fmap K V), unique_keys keq m1 -> unique_keys keq m2 ->
  (forall a, In a m1 -> lookup (fst a) m2 <> None) -> (length m2 <= length m1)%nat ->
  forall c, In c m2 -> lookup (fst c) m1 <> None.
Proof.
  intros m1 m2 H1 H2 H Hlen c Hc Hn.
  set (m2' := filter (fun x => negb (keq (fst x) (fst c))) m2).
  assert (Hl : length m2' = (length m2 - 1)%nat).
  { unfold m2'. rewrite (filter_len_uniq (fun x => keq (fst x) (fst c))) by (exact (unique_uniq_key keq _ keq KL m2 _ H2)).
    rewrite (lookup_in m2 c H2 Hc). reflexivity. }
  assert (Hpos : (1 <= length m2)%nat) by (destruct m2; [destruct Hc|simpl; lia]).
  assert (Hle : (length m1 <= length m2')%nat); [|lia].
  apply inject_length; [assumption|now apply FOP_filter|].
  intros a Ha Hna. specialize (H a Ha). destruct (lookup (fst a) m2) as [x|] eqn:E; [|congruence].
  apply find_some in E as [Hin E]. apply (List.find_none (fun x => keq (fst x) (fst a)) m2') with (x := x) in Hna.
  - congruence.
  - apply filter_In. split; [assumption|].
    pose proof (List.find_none _ _ Hn a Ha) as Hx. cbv beta in Hx.
    now rewrite (keq_cong _ _ (fst c) E), Hx.
Qed.

Definition entry_eq (veq : V -> V -> bool) (m2 : fmap K V) (x : K * V) : bool :=
  match option_map snd (lookup (fst x) m2) with Some v => veq (snd x) v | None => false end.

Lemma fm_equal_dec : forall veq (m1 m2 : fmap K V), unique_keys keq m1 -> unique_keys keq m2 ->
  (length m1 = length m2 /\ forallb (entry_eq veq m2) m1 = true) <-> fm_equal keq veq m1 m2.
Proof.
  intros veq m1 m2 H1 H2. split.
  - intros (Hlen & Hall) k. rewrite forallb_forall in Hall.
    assert (Hinj : forall a, In a m1 -> lookup (fst a) m2 <> None).
    { intros a Ha Hn. specialize (Hall a Ha). unfold entry_eq in Hall. now rewrite Hn in Hall. }
    destruct (lookup k m1) as [a|] eqn:E1.
    + apply find_some in E1 as [Ha Ek]. specialize (Hall a Ha). unfold entry_eq in Hall.
      rewrite (lookup_cong m2 (fst a) k Ek) in Hall. now destruct (lookup k m2).
    + destruct (lookup k m2) as [c|] eqn:E2; [|exact I].
      apply find_some in E2 as [Hc Ek]. apply (inject_rev m1 m2 H1 H2 Hinj ltac:(lia) c Hc).
      now rewrite (lookup_cong m1 (fst c) k Ek).
  - intros H.
    assert (Hi1 : forall a, In a m1 -> lookup (fst a) m2 <> None).
    { intros a Ha Hn. specialize (H (fst a)). rewrite (lookup_in m1 a H1 Ha), Hn in H. destruct H. }
    assert (Hi2 : forall a, In a m2 -> lookup (fst a) m1 <> None).
    { intros a Ha Hn. specialize (H (fst a)). rewrite (lookup_in m2 a H2 Ha), Hn in H. destruct H. }
    split.
    + pose proof (inject_length m1 m2 H1 H2 Hi1). pose proof (inject_length m2 m1 H2 H1 Hi2). lia.
    + apply forallb_forall. intros a Ha. specialize (H (fst a)). rewrite (lookup_in m1 a H1 Ha) in H.
      unfold entry_eq. destruct (lookup (fst a) m2); [exact H|destruct H].
Qed.

Lemma fm_equal_perm_refl : forall veq (m1 m2 : fmap K V), (forall v, veq v v = true) -> unique_keys keq m1 ->
  Permutation m1 m2 -> fm_equal keq veq m1 m2.
Proof.
  intros veq m1 m2 Hr Hu Hp k. rewrite (lookup_perm m1 m2 k Hp Hu). destruct (lookup k m2); auto.
Qed.
End Fin.

(** ** Entries are determined by the node *)
Section Ent.
Variable ubits b : N.
Context {K V : Type} {st : bool}.

Lemma chl_entries : forall (R : hnode K V -> list (hentry K V) -> Prop) dig al es, (forall n es, R n es -> es = @n_entries K V n) ->
  @chl K V st R dig al es -> es = concat (map n_entries (map snd al)).
Proof.
  intros R dig al es HR H. induction H as [|i c ec al rest Hr Hne Hd Hb2 Hrest IH]; simpl; [reflexivity|].
  rewrite <- IH. f_equal. now apply HR.
Qed.

Lemma hrep_entries : forall r d n es, @hrepg ubits b K V st r d n es -> es = @n_entries K V n.
Proof.
  induction r as [|r IH]; intros d n es H; destruct n as [s|[e|l]]; cbn [hrepg n_entries] in *.
  - destruct H.
  - assumption.
  - destruct H as (_ & (E & _) & _). now symmetry.
  - destruct H as (al & (_ & Ea & _) & Hc). rewrite Ea. eapply chl_entries; [|exact Hc]. intros. eapply IH; eassumption.
  - assumption.
  - destruct H as (H & _). discriminate.
Qed.
End Ent.

(** ** Documented invariants *)
Section Inv.
Variable ubits : N.
Variable dbg : bool.
Variable b : N.
Hypothesis Hb : (0 < b)%N.
Hypothesis Hdeg : (2 ^ b <= ubits)%N.
Hypothesis Hub : (ubits <= 64)%N.
Context {K V : Type}.
Local Open Scope N_scope.

Lemma digits_step : forall d h, h mod 2 ^ (N.of_nat (S d) * b) =
  idx b d h * 2 ^ (N.of_nat d * b) + h mod 2 ^ (N.of_nat d * b).
Proof.
  intros d h. replace (N.of_nat (S d) * b) with (N.of_nat d * b + b) by lia.
  rewrite N.pow_add_r, (idx_eq ubits dbg b Hb Hdeg Hub).
  rewrite N.mod_mul_r by (apply N.pow_nonzero; lia). lia.
Qed.

Lemma hrep_doc : forall r d (n : hnode K V) es root, hrep ubits b r d n es -> (d + r = D b)%nat ->
  (forall e e', In e es -> In e' es -> e_hash e mod 2 ^ (N.of_nat d * b) = e_hash e' mod 2 ^ (N.of_nat d * b)) ->
  (forall e, In e es -> e_hash e < 2 ^ 64) ->
  (root = false -> es <> [] /\ (is_branch n = true -> (2 <= length es)%nat)) ->
  doc_inv b root d n.
Proof.
  induction r as [|r IH]; intros d n es root H Hd Hdig Hr Hroot; destruct n as [s|[e|l]]; cbn [hrepg] in H.
  - destruct H.
  - constructor.
  - destruct H as (_ & (E & _) & Hlen). assert (H64 : 64 <= N.of_nat d * b).
    { destruct (N.le_gt_cases 64 (N.of_nat d * b)) as [Hx|Hx]; [assumption|exfalso].
      apply (D_spec ubits dbg b Hb Hdeg Hub) in Hx. lia. }
    constructor; [assumption|now rewrite E|].
    rewrite E. intros e e' He He'. specialize (Hdig e e' He He').
    assert (X : forall x, In x es -> e_hash x mod 2 ^ (N.of_nat d * b) = e_hash x).
    { intros x Hx. apply N.mod_small. eapply N.lt_le_trans; [now apply Hr|]. apply N.pow_le_mono_r; lia. }
    rewrite !X in Hdig by assumption. assumption.
  - pose proof H as (al & Hw & Hc).
    assert (Hes : es = n_entries (HBranch s)) by exact (hrep_entries ubits b (S r) d (HBranch s) es H).
    destruct Hw as (_ & Ea & _). constructor.
    + apply (D_spec ubits dbg b Hb Hdeg Hub). lia.
    + intros Ero. destruct (Hroot Ero) as (Hne & H2). rewrite <- Hes. split; [|now apply H2].
      intros E0. rewrite Ea in E0. destruct al; [|discriminate]. inversion Hc; subst. congruence.
    + rewrite Ea. clear Hes Ea Hroot H.
      assert (Hall : forall c, In c (map snd al) -> exists ec i, hrep ubits b r (S d) c ec /\ ec <> [] /\
        (forall e, In e ec -> idx b d (e_hash e) = i) /\ (is_branch c = true -> (2 <= length ec)%nat) /\
        (forall e, In e ec -> In e es)).
      { clear IH Hd Hdig Hr. induction Hc as [|i c ec al rest Hrc Hne Hdg Hb2 Hrest IHc]; intros x Hx; [destruct Hx|].
        destruct Hx as [<-|Hx].
        - exists ec, i. repeat split; auto. intros e He. apply in_app_iff. now left.
        - destruct (IHc x Hx) as (ec' & i' & A1 & A2 & A3 & A4 & A5). exists ec', i'. repeat split; auto.
          intros e He. apply in_app_iff. right. auto. }
      intros c Hin. destruct (Hall c Hin) as (ec & i & A1 & A2 & A3 & A4 & A5).
      apply (IH (S d) c ec false A1); [lia| | |auto].
      * intros e e' He He'. rewrite !digits_step, (A3 e He), (A3 e' He'). f_equal. apply Hdig; auto.
      * intros e He. apply Hr. auto.
  - constructor.
  - destruct H as (H & _). discriminate.
Qed.
End Inv.

(** ** Equality and set relations *)
Section EqP.
Variable ubits : N.
Variable dbg : bool.
Hypothesis Hub : (ubits <= 64)%N.
Context {K V : Type}.
Variable keq : K -> K -> bool.
Hypothesis KL : key_laws keq (fun k => k) keq.
Variables hash1 hash2 : K -> N.
Hypothesis HL1 : hash_laws (fun k : K => k) keq hash1 hash1.
Hypothesis HL2 : hash_laws (fun k : K => k) keq hash2 hash2.
Variables b1 b2 : N.
Hypothesis Hb1 : (0 < b1)%N.
Hypothesis Hb2 : (0 < b2)%N.
Hypothesis Hd1 : (2 ^ b1 <= ubits)%N.
Hypothesis Hd2 : (2 ^ b2 <= ubits)%N.
Variable fuel : nat.
Hypothesis Hf1 : (2 * D b1 < fuel)%nat.
Hypothesis Hf2 : (2 * D b2 < fuel)%nat.
Notation rep1 := (hm_rep ubits b1 keq hash1).
Notation rep2 := (hm_rep ubits b2 keq hash2).

Lemma same_root_perm : forall (m1 m2 : hmap K V) f1 f2, rep1 m1 f1 -> rep2 m2 f2 ->
  hm_root m1 = hm_root m2 -> Permutation f1 f2.
Proof.
  intros m1 m2 f1 f2 (es1 & R1 & _ & P1 & _) (es2 & R2 & _ & P2 & _) E.
  apply hrep_entries in R1. apply hrep_entries in R2. rewrite <- P1, <- P2, R1, R2, E. reflexivity.
Qed.

Lemma hm_get2 : forall (m2 : hmap K V) f2 k, rep2 m2 f2 ->
  hm_get ubits dbg (fun k => k) keq hash2 fuel m2 k = Ok (option_map snd (find (fun x => keq (fst x) k) f2)).
Proof.
  intros m2 f2 k H.
  destruct (hm_find_ok ubits dbg b2 Hb2 Hd2 Hub keq (fun k => k) keq hash2 hash2 KL HL2 fuel Hf2 m2 f2 k H) as (o & E & Eo).
  unfold hm_get. rewrite E. cbn [bind]. unfold fm_find in Eo. rewrite <- Eo. now destruct o.
Qed.

Lemma hm_eq_ok : forall veq same (m1 m2 : hmap K V) f1 f2, rep1 m1 f1 -> rep2 m2 f2 ->
  (same = true -> hm_root m1 = hm_root m2 /\ forall v, veq v v = true) ->
  exists r, hm_eq ubits dbg keq fuel veq hash2 same m1 m2 = Ok r /\
            (r = true <-> fm_equal keq veq f1 f2).
Proof.
  intros veq same m1 m2 f1 f2 H1 H2 Hsame. unfold hm_eq.
  assert (U1 : unique_keys keq f1) by (destruct H1 as (? & _ & _ & _ & ? & _); assumption).
  assert (U2 : unique_keys keq f2) by (destruct H2 as (? & _ & _ & _ & ? & _); assumption).
  assert (S1 : hm_size m1 = length f1) by (destruct H1 as (? & _ & _ & _ & _ & ? & _); assumption).
  assert (S2 : hm_size m2 = length f2) by (destruct H2 as (? & _ & _ & _ & _ & ? & _); assumption).
  destruct same.
  { destruct (Hsame eq_refl) as [E Hv]. exists true. split; [reflexivity|]. split; [|reflexivity]. intros _.
    apply fm_equal_perm_refl; auto. eapply same_root_perm; eassumption. }
  unfold hm_len. rewrite S1, S2. pose proof (fm_equal_dec keq KL veq f1 f2 U1 U2) as Hdec.
  destruct (Nat.eqb_spec (length f1) (length f2)) as [Hl|Hl]; cbn [negb].
  - destruct (hm_entries_ok ubits dbg b1 Hb1 Hd1 Hub keq (fun k => k) keq hash1 hash1 KL HL1 fuel Hf1 m1 f1 H1)
      as (l & E & Hp & _). rewrite E. cbn [bind].
    rewrite (all_m_ok _ _ (entry_eq keq veq f2)).
    + eexists. split; [reflexivity|]. rewrite (forallb_perm _ _ _ _ Hp), <- Hdec. intuition.
    + intros a _. rewrite (hm_get2 m2 f2 (fst a) H2). reflexivity.
  - exists false. split; [reflexivity|]. rewrite <- Hdec. split; [discriminate|intuition].
Qed.
End EqP.

Section SetP.
Context {T : Type}.
Definition ut (t : T) : T * unit := (t, tt).
Variable teq : T -> T -> bool.
Hypothesis KL : key_laws teq (fun k => k) teq.

Lemma ut_fst : forall l, map fst (map ut l) = l.
Proof. intros. rewrite map_map. apply map_id. Qed.
Lemma perm_ut : forall (l : list (T * unit)) s, Permutation l (map ut s) -> Permutation (map fst l) s.
Proof. intros l s H. apply (Permutation_map fst) in H. now rewrite ut_fst in H. Qed.
Lemma ut_map_fst : forall l : list (T * unit), map ut (map fst l) = l.
Proof. intros l. rewrite map_map. rewrite (map_ext _ (fun x => x)); [apply map_id|]. intros [t []]. reflexivity. Qed.
Lemma find_ut : forall p (s : list T), find (fun x => p (fst x)) (map ut s) = option_map ut (find p s).
Proof. intros. apply (find_map _ _ ut (fun x => p (fst x))). Qed.
Lemma filter_ut : forall p (s : list T), filter (fun x => p (fst x)) (map ut s) = map ut (filter p s).
Proof. intros. apply (filter_map _ _ ut (fun x => p (fst x))). Qed.

Lemma has_find : forall s x, has teq s x <-> is_some (find (fun t => teq t x) s) = true.
Proof.
  intros s x. split.
  - intros (y & Hin & E). destruct (find (fun t => teq t x) s) eqn:F; [reflexivity|].
    pose proof (List.find_none _ _ F y Hin) as Hx. cbv beta in Hx. rewrite (keq_sym teq _ teq KL) in Hx. congruence.
  - intros H. destruct (find (fun t => teq t x) s) as [y|] eqn:F; [|discriminate].
    apply find_some in F as [Hin E]. exists y. split; [assumption|]. now rewrite (keq_sym teq _ teq KL).
Qed.
Lemma has_in : forall s x, In x s -> has teq s x.
Proof. intros s x H. exists x. split; [assumption|]. apply (keq_refl teq _ teq KL). Qed.
Lemma has_cong : forall s x y, teq x y = true -> has teq s x -> has teq s y.
Proof.
  intros s x y E (z & Hz & F). exists z. split; [assumption|].
  rewrite (keq_sym teq _ teq KL) in E. exact (kl_trans _ _ _ KL y x z E F).
Qed.
Lemma has_perm : forall s s' x, Permutation s s' -> has teq s x -> has teq s' x.
Proof. intros s s' x H (y & Hy & E). exists y. split; [|assumption]. eapply Permutation_in; eassumption. Qed.
Lemma subset_forall : forall s1 s2, subset teq s1 s2 <-> forall x, In x s1 -> has teq s2 x.
Proof.
  intros s1 s2. split; intros H.
  - intros x Hx. apply H. now apply has_in.
  - intros x (y & Hy & E). apply (has_cong s2 y x); [now rewrite (keq_sym teq _ teq KL)|]. auto.
Qed.
Lemma subset_length : forall s1 s2, unique_keys teq (map ut s1) -> unique_keys teq (map ut s2) ->
  subset teq s1 s2 -> (length s1 <= length s2)%nat.
Proof.
  intros s1 s2 H1 H2 H. rewrite <- (map_length ut s1), <- (map_length ut s2).
  apply (inject_length teq KL); [assumption|assumption|].
  intros a Ha Hn. apply in_map_iff in Ha as (x & <- & Hx). simpl in Hn.
  pose proof (find_ut (fun t => teq t x) s2) as E. cbv beta in E. rewrite E in Hn.
  rewrite subset_forall in H. specialize (H x Hx). apply has_find in H. destruct (find (fun t => teq t x) s2); discriminate.
Qed.
Lemma set_equal_fm : forall s1 s2, set_equal teq s1 s2 <-> fm_equal teq (fun _ _ => true) (map ut s1) (map ut s2).
Proof.
  intros s1 s2. split; intros H x; specialize (H x).
  - pose proof (find_ut (fun t => teq t x) s1) as E1. pose proof (find_ut (fun t => teq t x) s2) as E2. cbv beta in *.
    rewrite E1, E2. rewrite !has_find in H.
    destruct (find (fun t => teq t x) s1), (find (fun t => teq t x) s2); cbn in *; intuition congruence.
  - pose proof (find_ut (fun t => teq t x) s1) as E1. pose proof (find_ut (fun t => teq t x) s2) as E2. cbv beta in *.
    rewrite E1, E2 in H. rewrite !has_find.
    destruct (find (fun t => teq t x) s1), (find (fun t => teq t x) s2); cbn in *; intuition congruence.
Qed.
End SetP.

Section SetH.
Variable ubits : N.
Variable dbg : bool.
Variable b : N.
Hypothesis Hb : (0 < b)%N.
Hypothesis Hdeg : (2 ^ b <= ubits)%N.
Hypothesis Hub : (ubits <= 64)%N.
Context {T Q : Type}.
Variable teq : T -> T -> bool.
Variable borrow : T -> Q.
Variable qeq : Q -> Q -> bool.
Variable hash : T -> N.
Variable qhash : Q -> N.
Hypothesis KL : key_laws teq borrow qeq.
Hypothesis HL : hash_laws borrow qeq hash qhash.
Variable fuel : nat.
Hypothesis Hfuel : (2 * D b < fuel)%nat.

Definition hs_rep (m : hset T) (s : list T) : Prop := hm_rep ubits b teq hash m (map ut s).

Lemma hs_insert_ok : forall m s t, hs_rep m s ->
  exists m', hs_insert_mut ubits dbg teq hash fuel m t = Ok m' /\ hs_rep m' (t :: filter (fun x => negb (teq x t)) s).
Proof.
  intros m s t H.
  destruct (hm_insert_ok ubits dbg b Hb Hdeg Hub teq borrow qeq hash qhash KL HL fuel Hfuel m _ t tt H) as (m' & E & H').
  exists m'. split; [exact E|]. unfold hs_rep. cbn [map].
  rewrite <- (filter_ut (fun x => negb (teq x t))). exact H'.
Qed.

Lemma hs_step_ok : forall (o : set_op T Q) m s, hs_rep m s ->
  exists m', hs_step ubits dbg teq borrow qeq hash qhash fuel o m
    = Ok (m', snd (set_spec teq borrow qeq o s)) /\ hs_rep m' (fst (set_spec teq borrow qeq o s)).
Proof.
  intros o m s H.
  assert (Hf : forall q, fm_find borrow qeq q (map ut s) = option_map ut (set_find borrow qeq q s)).
  { intros q. unfold fm_find, set_find. exact (find_ut (fun t => qeq (borrow t) q) s). }
  assert (Hr : forall q, fm_remove borrow qeq q (map ut s) = map ut (filter (fun x => negb (qeq (borrow x) q)) s)).
  { intros q. unfold fm_remove. exact (filter_ut (fun x => negb (qeq (borrow x) q)) s). }
  destruct o as [t|t|q|q|q|q| | |]; cbn [hs_step set_spec fst snd].
  - destruct (hs_insert_ok m s t H) as (m' & E & H'). unfold hs_insert, hm_insert. unfold hs_insert_mut in E.
    rewrite E. cbn [bind]. eauto.
  - destruct (hs_insert_ok m s t H) as (m' & E & H'). rewrite E. cbn [bind]. eauto.
  - destruct (hm_remove_ok ubits dbg b Hb Hdeg Hub teq borrow qeq hash qhash KL HL fuel Hfuel m _ q H) as (m' & E & H1 & H2).
    unfold hs_remove, hm_remove. rewrite E. cbn [bind]. eexists. split; [reflexivity|]. unfold hs_rep. rewrite <- Hr.
    destruct (is_some (fm_find borrow qeq q (map ut s))); auto.
  - destruct (hm_remove_ok ubits dbg b Hb Hdeg Hub teq borrow qeq hash qhash KL HL fuel Hfuel m _ q H) as (m' & E & H1 & H2).
    unfold hs_remove_mut. rewrite E. cbn [bind]. rewrite Hf, is_some_map.
    eexists. split; [reflexivity|]. unfold hs_rep. now rewrite <- Hr.
  - destruct (hm_find_ok ubits dbg b Hb Hdeg Hub teq borrow qeq hash qhash KL HL fuel Hfuel m _ q H) as (r & E & Er).
    unfold hs_get, hm_get_key_value. rewrite E. cbn [bind]. unfold kv in Er. rewrite Er, Hf.
    eexists. split; [|exact H]. now destruct (set_find borrow qeq q s).
  - destruct (hm_find_ok ubits dbg b Hb Hdeg Hub teq borrow qeq hash qhash KL HL fuel Hfuel m _ q H) as (r & E & Er).
    unfold hs_contains, hm_contains_key, hm_get. rewrite E. cbn [bind]. rewrite Hf in Er.
    eexists. split; [|exact H]. destruct r, (set_find borrow qeq q s); try discriminate; reflexivity.
  - eexists. split; [|exact H]. unfold hs_size, hm_len. destruct H as (_ & _ & _ & _ & _ & -> & _). now rewrite map_length.
  - eexists. split; [|exact H]. unfold hs_is_empty, hs_size, hm_len. destruct H as (_ & _ & _ & _ & _ & -> & _).
    rewrite map_length. now destruct s.
  - eauto.
Qed.

Lemma hs_extend_ok : forall ts m s, hs_rep m s ->
  exists m', hs_extend ubits dbg teq hash fuel m ts = Ok m' /\
    hs_rep m' (fold_left (fun acc t => t :: filter (fun x => negb (teq x t)) acc) ts s).
Proof.
  induction ts as [|t ts IH]; intros m s H; cbn [hs_extend fold_left]; [eauto|].
  destruct (hs_insert_ok m s t H) as (m' & E & H'). rewrite E. cbn [bind]. now apply IH.
Qed.

Lemma hs_elems_ok : forall m s, hs_rep m s -> exists l, hs_elems m = Ok l /\ Permutation l s.
Proof.
  intros m s H.
  destruct (hm_entries_ok ubits dbg b Hb Hdeg Hub teq borrow qeq hash qhash KL HL fuel Hfuel m _ H) as (l & E & Hp & _).
  exists (map fst l). unfold hs_elems, hm_keys. rewrite E. split; [reflexivity|]. now apply perm_ut.
Qed.
End SetH.

Section SetRel.
Variable ubits : N.
Variable dbg : bool.
Hypothesis Hub : (ubits <= 64)%N.
Context {T : Type}.
Variable teq : T -> T -> bool.
Hypothesis KL : key_laws teq (fun k => k) teq.
Variables hash1 hash2 : T -> N.
Hypothesis HL1 : hash_laws (fun k : T => k) teq hash1 hash1.
Hypothesis HL2 : hash_laws (fun k : T => k) teq hash2 hash2.
Variables b1 b2 : N.
Hypothesis Hb1 : (0 < b1)%N.
Hypothesis Hb2 : (0 < b2)%N.
Hypothesis Hd1 : (2 ^ b1 <= ubits)%N.
Hypothesis Hd2 : (2 ^ b2 <= ubits)%N.
Variable fuel : nat.
Hypothesis Hf1 : (2 * D b1 < fuel)%nat.
Hypothesis Hf2 : (2 * D b2 < fuel)%nat.

Lemma hs_contains_ok : forall m s t, hs_rep ubits b2 teq hash2 m s ->
  hs_contains ubits dbg (fun k => k) teq hash2 fuel m t = Ok (is_some (find (fun x => teq x t) s)).
Proof.
  intros m s t H.
  destruct (hs_step_ok ubits dbg b2 Hb2 Hd2 Hub teq (fun k => k) teq hash2 hash2 KL HL2 fuel Hf2 (SetContains t) m s H) as (m' & E & _).
  cbn [hs_step set_spec fst snd] in E. destruct (hs_contains _ _ _ _ _ _ _ _); cbn [bind] in E; try discriminate.
  assert (a = is_some (set_find (fun k => k) teq t s)) by congruence. subst a. reflexivity.
Qed.

Lemma hs_is_subset_ok : forall same m1 m2 s1 s2,
  hs_rep ubits b1 teq hash1 m1 s1 -> hs_rep ubits b2 teq hash2 m2 s2 ->
  (same = true -> hm_root m1 = hm_root m2) ->
  exists r, hs_is_subset ubits dbg teq fuel hash2 same m1 m2 = Ok r /\ (r = true <-> subset teq s1 s2).
Proof.
  intros same m1 m2 s1 s2 H1 H2 Hsame. unfold hs_is_subset.
  assert (U1 : unique_keys teq (map ut s1)) by (destruct H1 as (? & _ & _ & _ & ? & _); assumption).
  assert (U2 : unique_keys teq (map ut s2)) by (destruct H2 as (? & _ & _ & _ & ? & _); assumption).
  assert (S1 : hs_size m1 = length s1) by (destruct H1 as (? & _ & _ & _ & _ & E & _); rewrite map_length in E; exact E).
  assert (S2 : hs_size m2 = length s2) by (destruct H2 as (? & _ & _ & _ & _ & E & _); rewrite map_length in E; exact E).
  destruct same.
  { exists true. split; [reflexivity|]. split; [|reflexivity]. intros _ x Hx.
    pose proof (same_root_perm ubits teq hash1 hash2 b1 b2 m1 m2 _ _ H1 H2 (Hsame eq_refl)) as Hp.
    apply perm_ut in Hp. rewrite ut_fst in Hp. eapply has_perm; eassumption. }
  rewrite S1, S2. destruct (Nat.leb_spec (length s1) (length s2)) as [Hl|Hl]; cbn [negb].
  - destruct (hs_elems_ok ubits dbg b1 Hb1 Hd1 Hub teq (fun k => k) teq hash1 hash1 KL HL1 fuel Hf1 m1 s1 H1) as (l & E & Hp).
    rewrite E. cbn [bind]. rewrite (all_m_ok _ _ (fun t => is_some (find (fun x => teq x t) s2))).
    + eexists. split; [reflexivity|]. rewrite (forallb_perm _ _ _ _ Hp), (subset_forall teq KL), forallb_forall.
      split; intros H x Hx; apply (has_find teq KL); auto.
    + intros t _. now apply hs_contains_ok.
  - exists false. split; [reflexivity|]. split; [discriminate|]. intros H.
    apply (subset_length teq KL s1 s2 U1 U2) in H. lia.
Qed.

Lemma hs_is_disjoint_ok : forall m1 m2 s1 s2,
  hs_rep ubits b1 teq hash1 m1 s1 -> hs_rep ubits b2 teq hash2 m2 s2 ->
  exists r, hs_is_disjoint ubits dbg teq fuel hash2 m1 m2 = Ok r /\ (r = true <-> disjoint teq s1 s2).
Proof.
  intros m1 m2 s1 s2 H1 H2. unfold hs_is_disjoint.
  destruct (hs_elems_ok ubits dbg b1 Hb1 Hd1 Hub teq (fun k => k) teq hash1 hash1 KL HL1 fuel Hf1 m1 s1 H1) as (l & E & Hp).
  rewrite E. cbn [bind]. rewrite (all_m_ok _ _ (fun t => negb (is_some (find (fun x => teq x t) s2)))).
  - eexists. split; [reflexivity|]. rewrite (forallb_perm _ _ _ _ Hp), forallb_forall. split.
    + intros H x ((y & Hy & E1) & Hx2). specialize (H y Hy).
      assert (Hyx : has teq s2 y) by (eapply has_cong; eassumption).
      apply (has_find teq KL) in Hyx. rewrite Hyx in H. discriminate.
    + intros H x Hx. destruct (is_some (find (fun x0 => teq x0 x) s2)) eqn:F; [|reflexivity]. exfalso.
      apply (H x). split; [now apply (has_in teq KL)|]. now apply (has_find teq KL).
  - intros t _. rewrite (hs_contains_ok m2 s2 t H2). reflexivity.
Qed.

Lemma hs_eq_ok : forall same m1 m2 s1 s2,
  hs_rep ubits b1 teq hash1 m1 s1 -> hs_rep ubits b2 teq hash2 m2 s2 ->
  (same = true -> hm_root m1 = hm_root m2) ->
  exists r, hs_eq ubits dbg teq fuel hash2 same m1 m2 = Ok r /\ (r = true <-> set_equal teq s1 s2).
Proof.
  intros same m1 m2 s1 s2 H1 H2 Hs.
  destruct (hm_eq_ok ubits dbg Hub teq KL hash1 hash2 HL1 HL2 b1 b2 Hb1 Hb2 Hd1 Hd2 fuel Hf1 Hf2
    (fun _ _ => true) same m1 m2 _ _ H1 H2 (fun E => conj (Hs E) (fun _ => eq_refl))) as (r & E & Hr).
  exists r. split; [exact E|]. now rewrite Hr, (set_equal_fm teq KL).
Qed.
End SetRel.

(** ** Parallel iteration *)
Section Ray.
Variable ubits b : N.
Context {K V : Type}.
Notation node := (hnode K V).

Definition kvs (n : node) : list (K * V) := map kv (n_entries n).
Definition p_seq (p : @producer K V) : list (K * V) :=
  match p with
  | PBranch l => concat (map kvs l)
  | PLeaf b => kvs (HLeaf b)
  end.

(** Every list in the tree is a well-formed List (needed for [l_elems]), and no branch below
    a node of interest is empty. *)
Inductive good : node -> Prop :=
| good_single : forall e, good (HLeaf (BSingle e))
| good_coll : forall l, l_rep l (l_head l) -> l_head l <> [] -> good (HLeaf (BCollision l))
| good_branch : forall s, sa_array s <> [] -> (forall c, In c (sa_array s) -> good c) -> good (HBranch s).

Lemma hrep_good : forall r d (n : node) es, hrep ubits b r d n es -> es <> [] -> good n.
Proof.
  induction r as [|r IH]; intros d n es H Hne; destruct n as [s|[e|l]]; cbn [hrepg] in H.
  - destruct H.
  - constructor.
  - destruct H as (_ & Hl & Hlen). constructor; destruct Hl as (E & ? & ?); rewrite E; [repeat split; auto|assumption].
  - destruct H as (al & (_ & Ea & _) & Hc). constructor.
    + intros E0. rewrite Ea in E0. destruct al; [|discriminate]. inversion Hc; subst. congruence.
    + rewrite Ea. clear Ea Hne. induction Hc as [|i c ec al rest Hr Hne Hd Hb2 Hrest IHc]; intros x Hx; [destruct Hx|].
      destruct Hx as [<-|Hx]; [eapply IH; eassumption|now apply IHc].
  - constructor.
  - destruct H as (H & _). discriminate.
Qed.

Lemma kvs_branch : forall s, kvs (HBranch s) = concat (map kvs (sa_array s)).
Proof.
  intros s. unfold kvs. cbn [n_entries]. rewrite concat_map, map_map. reflexivity.
Qed.

Lemma from_node_seq : forall n, good n -> p_seq (p_from_node n) = kvs n.
Proof.
  fix IH 1. intros n H. destruct n as [s|bk].
  - rewrite kvs_branch. assert (Hc : forall c, In c (sa_array s) -> good c) by (inversion H; assumption).
    clear H. destruct s as [bm l]. cbn [p_from_node sa_array] in *. destruct l as [|c [|c' l]].
    + reflexivity.
    + cbn [map concat]. rewrite app_nil_r. apply IH. apply Hc. now left.
    + reflexivity.
  - reflexivity.
Qed.

Lemma kvs_nonempty : forall n, good n -> kvs n <> [].
Proof.
  intros n H. induction H as [e|l Hl Hne|s Hne Hc IH].
  - discriminate.
  - unfold kvs. cbn [n_entries]. destruct (l_head l); [congruence|discriminate].
  - rewrite kvs_branch. destruct (sa_array s) as [|c l]; [congruence|]. cbn [map concat].
    intros E. apply app_eq_nil in E as [E _]. exact (IH c (or_introl eq_refl) E).
Qed.

Section Full.
Variable full : list (K * V) -> bool.
Notation consume := (fun (log : list (K * V)) x => log ++ [x]).
Notation uf := (until_full full).

Lemma uf_stop_app : forall l1 l2 log,
  l1 <> [] -> uf log (l1 ++ l2) = if full (uf log l1) then uf log l1 else uf (uf log l1) l2.
Proof.
  induction l1 as [|a l1 IH]; intros l2 log Hne; [congruence|]. cbn [app until_full].
  destruct (full (log ++ [a])) eqn:E; [now rewrite E|].
  destruct l1 as [|c l1]; [cbn [app until_full]; now rewrite E|]. apply IH. discriminate.
Qed.

Lemma fold_list_ok : forall (es : list (hentry K V)) log,
  fold_until (list (K * V)) full (fun e f => Ok (f ++ [(e_key e, e_val e)])) es log = Ok (uf log (map kv es)).
Proof.
  induction es as [|e es IH]; intros log; [reflexivity|].
  cbn [fold_until map until_full bind]. unfold kv at 1 2. destruct (full (log ++ [(e_key e, e_val e)])); [reflexivity|].
  apply IH.
Qed.

Lemma fold_bucket_ok : forall bk log, good (HLeaf bk) ->
  fold_bucket (list (K * V)) consume full bk log = Ok (uf log (kvs (HLeaf bk))).
Proof.
  intros [e|l] log H; cbn [fold_bucket].
  - cbn. unfold kv. now destruct (full (log ++ [(e_key e, e_val e)])).
  - inversion H as [|? Hl Hne|]; subst. rewrite (l_elems_ok l _ Hl). cbn [bind].
    rewrite fold_list_ok. reflexivity.
Qed.

Lemma fold_until_nodes : forall (g : node -> list (K * V) -> res (list (K * V))) l log,
  (forall c, In c l -> good c /\ forall log, g c log = Ok (uf log (kvs c))) ->
  fold_until _ full g l log = Ok (uf log (concat (map kvs l))).
Proof.
  intros g. induction l as [|c l IH]; intros log H; [reflexivity|].
  destruct (H c (or_introl eq_refl)) as (Hg & Hc). cbn [fold_until map concat]. rewrite Hc. cbn [bind].
  rewrite uf_stop_app by (now apply kvs_nonempty).
  destruct (full (uf log (kvs c))); [reflexivity|]. apply IH. intros x Hx. apply H. now right.
Qed.

Lemma fold_all_ok : forall n log, good n -> fold_all_entries _ consume full n log = Ok (uf log (kvs n)).
Proof.
  intros n log H. revert log. induction H as [e|l Hl Hne|s Hne Hc IH]; intros log.
  - apply (fold_bucket_ok (BSingle e)). constructor.
  - apply (fold_bucket_ok (BCollision l)). now constructor.
  - cbn [fold_all_entries]. rewrite fold_until_nodes, kvs_branch; [reflexivity|]. auto.
Qed.
End Full.

Definition p_good (p : @producer K V) : Prop :=
  match p with
  | PBranch l => forall c, In c l -> good c
  | PLeaf bk => good (HLeaf bk)
  end.

Lemma from_node_good : forall n, good n -> p_good (p_from_node n).
Proof.
  fix IH 1. intros n H. destruct n as [s|bk].
  - assert (Hc : forall c, In c (sa_array s) -> good c) by (inversion H; assumption).
    clear H. destruct s as [bm l]. cbn [p_from_node sa_array] in *. destruct l as [|c [|c' l]].
    + intros c [].
    + apply IH. apply Hc. now left.
    + exact Hc.
  - exact H.
Qed.

Lemma from_nodes_ok : forall l, (forall c, In c l -> good c) ->
  p_good (p_from_nodes l) /\ p_seq (p_from_nodes l) = concat (map kvs l).
Proof.
  intros [|c [|c' l]] H; cbn [p_from_nodes].
  - split; [intros c []|reflexivity].
  - split; [apply from_node_good; apply H; now left|]. cbn [map concat]. rewrite app_nil_r.
    apply from_node_seq. apply H. now left.
  - split; [exact H|reflexivity].
Qed.

Lemma p_fold_ok : forall full p, p_good p ->
  p_fold_with _ (fun log x => log ++ [x]) full p [] = Ok (until_full full [] (p_seq p)).
Proof.
  intros full [l|bk] H; cbn [p_fold_with p_seq].
  - apply fold_until_nodes. intros c Hc. split; [now apply H|]. intros log. apply fold_all_ok. now apply H.
  - now apply fold_bucket_ok.
Qed.

Lemma p_drive_ok : forall t p, p_good p -> exists outs, p_drive t p = Ok outs /\ delivers t (p_seq p) outs.
Proof.
  induction t as [full| |t1 IH1 t2 IH2 full]; intros p H; cbn [p_drive delivers].
  - rewrite p_fold_ok by assumption. cbn [bind]. eauto.
  - eauto.
  - destruct p as [l|bk]; cbn [p_split].
    + destruct (Nat.ltb_spec 1 (length l)) as [Hl|Hl].
      * set (k := Nat.div (length l) 2).
        destruct (from_nodes_ok (firstn k l)) as (G1 & S1).
        { intros c Hc. apply H. rewrite <- (firstn_skipn k l). apply in_app_iff. now left. }
        destruct (from_nodes_ok (skipn k l)) as (G2 & S2).
        { intros c Hc. apply H. rewrite <- (firstn_skipn k l). apply in_app_iff. now right. }
        destruct (IH1 _ G1) as (o1 & E1 & D1). destruct (IH2 _ G2) as (o2 & E2 & D2).
        cbv zeta. rewrite E1, E2. cbn [bind]. exists (o1 ++ o2). split; [reflexivity|]. right.
        exists (concat (map kvs (firstn k l))), (concat (map kvs (skipn k l))), o1, o2.
        rewrite <- S1, <- S2. repeat split; auto.
        rewrite S1, S2, <- concat_app, <- map_app, firstn_skipn. reflexivity.
      * rewrite p_fold_ok by assumption. cbn [bind]. eauto.
    + rewrite p_fold_ok by assumption. cbn [bind]. eauto.
Qed.

Lemma until_never : forall A (full : list A -> bool), (forall l, full l = false) ->
  forall l log, until_full full log l = log ++ l.
Proof.
  intros A full H. induction l as [|a l IH]; intros log; simpl; [now rewrite app_nil_r|].
  rewrite H, IH, <- app_assoc. reflexivity.
Qed.
Lemma delivers_never : forall A (t : schedule A) l outs, never_full t -> delivers t l outs -> concat outs = l.
Proof.
  intros A. induction t as [full| |t1 IH1 t2 IH2 full]; intros l outs Hn H; cbn [never_full delivers] in *.
  - subst. simpl. now rewrite until_never, app_nil_r.
  - destruct Hn.
  - destruct Hn as (N1 & N2 & N3). destruct H as [->|(l1 & l2 & o1 & o2 & -> & -> & D1 & D2)].
    + simpl. now rewrite until_never, app_nil_r.
    + rewrite concat_app, (IH1 _ _ N1 D1), (IH2 _ _ N2 D2). reflexivity.
Qed.
End Ray.

(** ** Degree one *)
Section One.
Variable ubits : N.
Variable dbg : bool.
Hypothesis Hu : (0 < ubits)%N.
Context {K V : Type}.
Variable keq : K -> K -> bool.

Lemma index_one : forall h d, index_from_hash dbg h d 1 = Ok (Some 0%N).
Proof.
  intros h d. unfold index_from_hash. change (is_power_of_two 1) with true.
  unfold debug_assert. rewrite andb_false_r. cbn [bind]. change (trailing_zeros 1) with 0%N.
  unfold umul. rewrite N.mul_0_r. change (0 <? 2 ^ 32)%N with true. cbn [bind].
  change (0 <? 64)%N with true. change (usub 64 dbg 1 1) with (Ok 0%N). cbn [bind]. now rewrite N.land_0_r.
Qed.

Lemma degree_one_leaf : forall fuel d (e o : hentry K V), matches_key keq (e_key e) (e_hash e) o = false ->
  hn_insert ubits dbg keq fuel e (HLeaf (BSingle o)) d 1 = Diverge.
Proof.
  induction fuel as [fuel IH] using lt_wf_ind. intros d e o Hm.
  destruct fuel as [|fuel]; [reflexivity|]. cbn [hn_insert]. rewrite index_one. cbn [bind is_some negb].
  unfold b_contains_key, b_find. rewrite Hm. cbn [bind is_some].
  destruct fuel as [|fuel]; [reflexivity|].
  assert (E1 : exists s1, hn_insert ubits dbg keq (S fuel) o new_empty_branch d 1 = Ok (HBranch s1, true) /\
             sa_wf ubits s1 [(0%N, HLeaf (BSingle o))]).
  { unfold new_empty_branch. cbn [hn_insert]. rewrite index_one. cbn [bind unwrap].
    destruct (sa_access ubits dbg Hu (sa_new : sarr (hnode K V)) [] 0 (sa_wf_new ubits dbg Hu) Hu)
      as [(l1 & l2 & E & _ & _ & _ & -> & _ & Hset)|(l1 & c & l2 & E & _)]; [|destruct l1; discriminate].
    destruct (Hset (HLeaf (BSingle o))) as (s' & -> & Hw'). cbn [bind].
    destruct l1; [|discriminate]. destruct l2; [|discriminate]. eauto. }
  destruct E1 as (s1 & -> & Hw). cbn [bind hn_insert]. rewrite index_one. cbn [bind unwrap].
  destruct (sa_access ubits dbg Hu s1 _ 0 Hw Hu)
    as [(l1 & l2 & E & B & A & _)|(l1 & c & l2 & E & B & A & _ & (w & -> & _) & _)].
  - exfalso. assert (Hin : In (0%N, HLeaf (BSingle o)) (l1 ++ l2)) by (rewrite <- E; now left).
    apply in_app_iff in Hin as [Hin|Hin]; [apply B in Hin|apply A in Hin]; simpl in Hin; lia.
  - assert (c = HLeaf (BSingle o)).
    { destruct l1 as [|p l1]; cbn [app] in E; [congruence|]. destruct l1; discriminate. }
    subst c. cbn [bind]. rewrite (IH fuel) by (auto; lia). reflexivity.
Qed.
End One.
