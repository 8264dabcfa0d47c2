(** Properties of HashTrieMap and HashTrieSet: C12-C17, C19, C20, and the HashTrie parts of
    C33, C44 and C45. *)
From Coq Require Import List NArith Arith Bool Lia Permutation.
From Verif Require Import Base Spec SpecMap Sim ListModel SparseModel HashModel HashProofs HashHist HashExtra HashExtraProofs.
Import ListNotations.
Local Open Scope N_scope.

(** Degrees 2, 4, 8, ... up to [usize::BITS]. *)
Definition supported (ubits degree : N) : Prop :=
  exists b, 0 < b /\ degree = 2 ^ b /\ degree <= ubits.

(** Number of digits of a 64-bit hash in base [degree]. *)
Definition digits (degree : N) : nat := N.to_nat ((64 + N.log2 degree - 1) / N.log2 degree).

Lemma digits_D : forall b, digits (2 ^ b) = D b.
Proof. intros b. unfold digits, D. rewrite N.log2_pow2 by lia. reflexivity. Qed.

(** The maps obtained from [new_with_degree] by some history, with the finite map the history
    describes.  [fuel] is the call depth granted to the recursive functions. *)
Definition hm_reached {K V Q} (ubits : N) (dbg : bool) (keq : K -> K -> bool) (borrow : K -> Q)
  (qeq : Q -> Q -> bool) (hash : K -> N) (qhash : Q -> N) (fuel : nat)
  (degree : N) (m : hmap K V) (fm : fmap K V) : Prop :=
  supported ubits degree /\ (2 * digits degree < fuel)%nat /\
  exists m0 ops outs,
    hm_new_with_degree ubits degree = Ok m0 /\
    exec_m (hm_step ubits dbg keq borrow qeq hash qhash fuel) ops m0 = Ok (m, outs) /\
    fm = fst (exec_s (map_spec keq borrow qeq) ops []).

Lemma reached_rep : forall K V Q ubits dbg keq (borrow : K -> Q) qeq hash qhash fuel degree (m : hmap K V) fm,
  ubits <= 64 -> key_laws keq borrow qeq -> hash_laws borrow qeq hash qhash ->
  hm_reached ubits dbg keq borrow qeq hash qhash fuel degree m fm ->
  exists b, 0 < b /\ degree = 2 ^ b /\ 2 ^ b <= ubits /\ (2 * D b < fuel)%nat /\ hm_rep ubits b keq hash m fm.
Proof.
  intros K V Q ubits dbg keq borrow qeq hash qhash fuel degree m fm Hub KL HL
    ((b & Hb & -> & Hd) & Hf & m0 & ops & outs & E0 & E & ->).
  rewrite digits_D in Hf. exists b. repeat split; auto.
  destruct (hash_history (strict:=true) ubits dbg b Hb Hd Hub keq borrow qeq hash qhash KL HL fuel Hf ops) as (m0' & m' & E0' & E' & H).
  assert (m0' = m0) by congruence. subst m0'. assert (m' = m) by congruence. now subst m'.
Qed.

Lemma hash_laws_id : forall K Q (keq : K -> K -> bool) (borrow : K -> Q) qeq hash qhash,
  key_laws keq borrow qeq -> hash_laws borrow qeq hash qhash -> hash_laws (fun k => k) keq hash hash.
Proof.
  intros K Q keq borrow qeq hash qhash KL HL. constructor.
  - reflexivity.
  - intros a c E. rewrite !(hl_borrow _ _ _ _ HL). apply (hl_eq _ _ _ _ HL). now rewrite <- (kl_borrow _ _ _ KL).
  - intros k. rewrite (hl_borrow _ _ _ _ HL). apply (hl_range _ _ _ _ HL).
Qed.

(** ** C12 *)
Theorem C12_hash_map_history : forall (K V Q : Type) (ubits : N) (dbg : bool)
  (keq : K -> K -> bool) (borrow : K -> Q) (qeq : Q -> Q -> bool) (hash : K -> N) (qhash : Q -> N),
  ubits <= 64 -> key_laws keq borrow qeq -> hash_laws borrow qeq hash qhash ->
  forall (degree : N) (fuel : nat), supported ubits degree -> (2 * digits degree < fuel)%nat ->
  forall (ops : list (map_op K V Q)), exists m0 m,
    hm_new_with_degree ubits degree = Ok m0 /\
    exec_m (hm_step ubits dbg keq borrow qeq hash qhash fuel) ops m0
      = Ok (m, snd (exec_s (map_spec keq borrow qeq) ops [])).
Proof.
  intros K V Q ubits dbg keq borrow qeq hash qhash Hub KL HL degree fuel (b & Hb & -> & Hd) Hf ops.
  rewrite digits_D in Hf.
  destruct (hash_history (strict:=true) ubits dbg b Hb Hd Hub keq borrow qeq hash qhash KL HL fuel Hf ops) as (m0 & m & E0 & E & _).
  exists m0, m. auto.
Qed.
Print Assumptions C12_hash_map_history.

(** The [Index] operator panics exactly on absent keys; the spec state is a finite map: no
    two entries have equal keys. *)
Theorem C12_hash_map_index : forall (K V Q : Type) (ubits : N) (dbg : bool)
  (keq : K -> K -> bool) (borrow : K -> Q) (qeq : Q -> Q -> bool) (hash : K -> N) (qhash : Q -> N),
  ubits <= 64 -> key_laws keq borrow qeq -> hash_laws borrow qeq hash qhash ->
  forall (fuel : nat) (degree : N) (m : hmap K V) (fm : fmap K V),
  hm_reached ubits dbg keq borrow qeq hash qhash fuel degree m fm ->
  unique_keys keq fm /\
  forall q, hm_index ubits dbg borrow qeq qhash fuel m q =
    match fm_find borrow qeq q fm with Some x => Ok (snd x) | None => Panic end.
Proof.
  intros K V Q ubits dbg keq borrow qeq hash qhash Hub KL HL fuel degree m fm H.
  destruct (reached_rep _ _ _ _ _ _ _ _ _ _ _ _ _ _ Hub KL HL H) as (b & Hb & -> & Hd & Hf & Hr).
  split; [destruct Hr as (? & _ & _ & _ & ? & _); assumption|]. intros q.
  destruct (hm_find_ok ubits dbg b Hb Hd Hub keq borrow qeq hash qhash KL HL fuel Hf m fm q Hr) as (o & E & Eo).
  unfold hm_index, hm_get. rewrite E. cbn [bind]. rewrite <- Eo. now destruct o.
Qed.
Print Assumptions C12_hash_map_index.

(** ** C13 *)
Theorem C13_hash_map_iteration : forall (K V Q : Type) (ubits : N) (dbg : bool)
  (keq : K -> K -> bool) (borrow : K -> Q) (qeq : Q -> Q -> bool) (hash : K -> N) (qhash : Q -> N),
  ubits <= 64 -> key_laws keq borrow qeq -> hash_laws borrow qeq hash qhash ->
  forall (fuel : nat) (degree : N) (m : hmap K V) (fm : fmap K V),
  hm_reached ubits dbg keq borrow qeq hash qhash fuel degree m fm ->
  exists l, Permutation l fm /\ unique_keys keq l /\
    (forall k, runs hi_next hi_hint k (hi_new m) = Ok (fwd_spec k l)) /\
    hm_keys m = Ok (map fst l) /\ hm_values m = Ok (map snd l).
Proof.
  intros K V Q ubits dbg keq borrow qeq hash qhash Hub KL HL fuel degree m fm H.
  destruct (reached_rep _ _ _ _ _ _ _ _ _ _ _ _ _ _ Hub KL HL H) as (b & Hb & -> & Hd & Hf & Hr).
  destruct (hm_entries_ok ubits dbg b Hb Hd Hub keq borrow qeq hash qhash KL HL fuel Hf m fm Hr) as (l & E & Hp & Hk).
  exists l. unfold hm_keys, hm_values. rewrite E. repeat split; auto.
  eapply unique_perm; [exact KL|symmetry; exact Hp|]. destruct Hr as (? & _ & _ & _ & ? & _); assumption.
Qed.
Print Assumptions C13_hash_map_iteration.

(** ** C14 *)
Theorem C14_hash_map_invariants : forall (K V Q : Type) (ubits : N) (dbg : bool)
  (keq : K -> K -> bool) (borrow : K -> Q) (qeq : Q -> Q -> bool) (hash : K -> N) (qhash : Q -> N),
  ubits <= 64 -> key_laws keq borrow qeq -> hash_laws borrow qeq hash qhash ->
  forall (fuel : nat) (degree : N) (m : hmap K V) (fm : fmap K V),
  hm_reached ubits dbg keq borrow qeq hash qhash fuel degree m fm ->
  (* the documented invariants *)
  doc_inv (N.log2 degree) true 0 (hm_root m) /\
  (* the stored hashes are the hashes of the stored keys *)
  (forall e, In e (n_entries (hm_root m)) -> e_hash e = hash (e_key e)) /\
  (* no call panics, and none needs a recursion deeper than two frames per hash digit *)
  forall (fuel' : nat) (o : map_op K V Q), (2 * digits degree < fuel')%nat ->
  exists m' out, hm_step ubits dbg keq borrow qeq hash qhash fuel' o m = Ok (m', out).
Proof.
  intros K V Q ubits dbg keq borrow qeq hash qhash Hub KL HL fuel degree m fm H.
  destruct (reached_rep _ _ _ _ _ _ _ _ _ _ _ _ _ _ Hub KL HL H) as (b & Hb & -> & Hd & Hf & Hr).
  pose proof Hr as (es & R & Hh & _). rewrite N.log2_pow2 by lia. split; [|split].
  - apply (hrep_doc ubits dbg b Hb Hd Hub (D b) 0 (hm_root m) es true R eq_refl).
    + intros. cbn. now rewrite !N.mod_1_r.
    + intros e He. rewrite (Hh e He), (hl_borrow _ _ _ _ HL). apply (hl_range _ _ _ _ HL).
    + discriminate.
  - rewrite <- (hrep_entries ubits b _ _ _ _ R). exact Hh.
  - intros fuel' o Hf'. rewrite digits_D in Hf'.
    destruct (hm_step_ok ubits dbg b Hb Hd Hub keq borrow qeq hash qhash KL HL fuel' Hf' o m fm Hr) as (m' & E & _).
    eauto.
Qed.
Print Assumptions C14_hash_map_invariants.

(** ** C15 *)
Theorem C15_hash_map_insert_replaces : forall (K V Q : Type) (ubits : N) (dbg : bool)
  (keq : K -> K -> bool) (borrow : K -> Q) (qeq : Q -> Q -> bool) (hash : K -> N) (qhash : Q -> N),
  ubits <= 64 -> key_laws keq borrow qeq -> hash_laws borrow qeq hash qhash ->
  forall (fuel : nat) (degree : N) (m : hmap K V) (fm : fmap K V),
  hm_reached ubits dbg keq borrow qeq hash qhash fuel degree m fm ->
  forall (k : K) (v : V), exists m', hm_insert ubits dbg keq hash fuel m k v = Ok m' /\
    (* afterwards [k] itself and [v] are stored, whatever equal key was there *)
    (forall q, qeq (borrow k) q = true ->
       hm_get_key_value ubits dbg borrow qeq qhash fuel m' q = Ok (Some (k, v))) /\
    (* every other key is untouched *)
    (forall q, qeq (borrow k) q = false ->
       hm_get_key_value ubits dbg borrow qeq qhash fuel m' q =
       hm_get_key_value ubits dbg borrow qeq qhash fuel m q) /\
    (* the size grows exactly when no equal key was present *)
    exists present, hm_contains_key ubits dbg borrow qeq qhash fuel m (borrow k) = Ok present /\
      hm_len m' = (hm_len m + if present then 0 else 1)%nat.
Proof.
  intros K V Q ubits dbg keq borrow qeq hash qhash Hub KL HL fuel degree m fm H k v.
  destruct (reached_rep _ _ _ _ _ _ _ _ _ _ _ _ _ _ Hub KL HL H) as (b & Hb & -> & Hd & Hf & Hr).
  destruct (hm_insert_ok ubits dbg b Hb Hd Hub keq borrow qeq hash qhash KL HL fuel Hf m fm k v Hr) as (m' & E & Hr').
  assert (G : forall (m : hmap K V) (fm : fmap K V) q, hm_rep ubits b keq hash m fm ->
    hm_get_key_value ubits dbg borrow qeq qhash fuel m q = Ok (fm_find borrow qeq q fm)).
  { intros m1 f1 q H1.
    destruct (hm_find_ok ubits dbg b Hb Hd Hub keq borrow qeq hash qhash KL HL fuel Hf m1 f1 q H1) as (o & E1 & Eo).
    unfold hm_get_key_value. rewrite E1. cbn [bind]. unfold kv in Eo. now rewrite Eo. }
  exists m'. split; [exact E|].
  assert (U : unique_keys keq fm) by (destruct Hr as (? & _ & _ & _ & ? & _); assumption).
  split; [|split].
  - intros q Hq. rewrite (G m' _ q Hr'). unfold fm_find, fm_insert. cbn [find fst]. now rewrite Hq.
  - intros q Hq. rewrite (G m' _ q Hr'), (G m _ q Hr). f_equal. unfold fm_find, fm_insert. cbn [find fst]. rewrite Hq.
    clear - KL Hq. induction fm as [|a fm IH]; [reflexivity|]. cbn [filter].
    destruct (keq (fst a) k) eqn:Ea; cbn [negb find].
    + rewrite (keq_qeq keq borrow qeq KL _ _ q Ea), Hq. exact IH.
    + destruct (qeq (borrow (fst a)) q); [reflexivity|exact IH].
  - unfold hm_contains_key, hm_get.
    destruct (hm_find_ok ubits dbg b Hb Hd Hub keq borrow qeq hash qhash KL HL fuel Hf m fm (borrow k) Hr) as (o & E1 & Eo).
    rewrite E1. cbn [bind]. eexists. split; [reflexivity|]. rewrite is_some_map. unfold hm_len.
    assert (S1 : hm_size m = length fm) by (destruct Hr as (? & _ & _ & _ & _ & ? & _); assumption).
    assert (S2 : hm_size m' = length (fm_insert keq k v fm)) by (destruct Hr' as (? & _ & _ & _ & _ & ? & _); assumption).
    rewrite S1, S2. unfold fm_insert. cbn [length].
    rewrite (filter_len_uniq (fun x => keq (fst x) k)) by (exact (unique_uniq_key keq borrow qeq KL fm k U)).
    assert (Ef : find (fun x => keq (fst x) k) fm = fm_find borrow qeq (borrow k) fm).
    { unfold fm_find. apply find_ext_in. intros x _. apply (kl_borrow _ _ _ KL). }
    rewrite Ef, <- Eo. destruct o as [e|]; cbn [option_map is_some]; [|lia].
    unfold fm_find in Eo. destruct fm; [discriminate|]. cbn [length]. lia.
Qed.
Print Assumptions C15_hash_map_insert_replaces.

(** ** C16 *)
Definition power_of_two (n : N) : Prop := exists b, n = 2 ^ b.

Lemma count_ones_1 : forall p, pos_count_ones p = 1%nat -> power_of_two (Npos p).
Proof.
  induction p as [p IH|p IH|]; intros H; cbn in H.
  - exfalso. assert (Hpos : forall p, (1 <= pos_count_ones p)%nat) by (induction p0; cbn; lia).
    specialize (Hpos p). lia.
  - destruct (IH H) as (b & E). exists (N.succ b). rewrite N.pow_succ_r', <- E. reflexivity.
  - exists 0. reflexivity.
Qed.

Lemma is_power_of_two_ok : forall n, is_power_of_two n = true <-> power_of_two n.
Proof.
  intros n. unfold is_power_of_two. rewrite Nat.eqb_eq. split.
  - destruct n as [|p]; [discriminate|]. apply count_ones_1.
  - intros (b & ->). apply count_ones_pow2.
Qed.

(** [new_with_degree] panics exactly when the degree is not a power of two or too large.
    (C12 and C14 give termination for every accepted degree but 1.) *)
Theorem C16_degrees_accepted : forall (K V : Type) (ubits degree : N),
  (hm_new_with_degree (K := K) (V := V) ubits degree = Panic <-> ~ power_of_two degree \/ ubits < degree) /\
  (power_of_two degree /\ degree <= ubits <-> degree = 1 /\ 1 <= ubits \/ supported ubits degree).
Proof.
  intros K V ubits degree. split.
  - unfold hm_new_with_degree, DEFAULT_DEGREE. pose proof (is_power_of_two_ok degree) as Hp.
    destruct (is_power_of_two degree); cbn [negb].
    + destruct (N.leb_spec degree ubits); cbn [negb]; split; intros H0; try discriminate; try reflexivity; auto.
      destruct H0 as [H0|H0]; [|lia]. exfalso. apply H0. now apply Hp.
    + split; intros _; [left|reflexivity]. intros H0. apply Hp in H0. discriminate.
  - split.
    + intros ((b & ->) & Hle). destruct (N.eq_dec b 0) as [->|Hb]; [left; split; [reflexivity|exact Hle]|].
      right. exists b. repeat split; [lia|assumption].
    + intros [(-> & Hle)|(b & Hb & -> & Hle)]; (split; [|assumption]); [exists 0|exists b]; reflexivity.
Qed.
Print Assumptions C16_degrees_accepted.

(** The claim that every accepted degree works is false: degree 1 is accepted, but inserting
    any second, different key recurses without end (no amount of fuel suffices). *)
Theorem C16_degree_one_refuted : forall (K V : Type) (ubits : N) (dbg : bool) (keq : K -> K -> bool) (hash : K -> N),
  0 < ubits -> forall (k1 k2 : K) (v1 v2 : V), keq k1 k2 = false ->
  exists m0, hm_new_with_degree ubits 1 = Ok m0 /\
  forall fuel, (0 < fuel)%nat -> exists m1, hm_insert_mut ubits dbg keq hash fuel m0 k1 v1 = Ok m1 /\
  forall fuel', hm_insert_mut ubits dbg keq hash fuel' m1 k2 v2 = Diverge.
Proof.
  intros K V ubits dbg keq hash Hu k1 k2 v1 v2 Hk. unfold hm_new_with_degree, DEFAULT_DEGREE.
  change (is_power_of_two 1) with true. cbn [negb]. destruct (N.leb_spec 1 ubits); [|lia]. cbn [negb].
  eexists. split; [reflexivity|]. intros fuel Hf. destruct fuel as [|fuel]; [lia|].
  unfold hm_insert_mut. cbn [hm_root hm_degree hm_size].
  assert (E1 : exists s1, hn_insert ubits dbg keq (S fuel) (mkE k1 v1 (hash k1)) new_empty_branch 0 1 = Ok (HBranch s1, true) /\
             SparseProofs.sa_wf ubits s1 [(0, HLeaf (BSingle (mkE k1 v1 (hash k1))))]).
  { unfold new_empty_branch. cbn [hn_insert]. rewrite index_one. cbn [bind unwrap].
    destruct (SparseProofs.sa_access ubits dbg Hu (sa_new : sarr (hnode K V)) [] 0 (SparseProofs.sa_wf_new ubits dbg Hu) Hu)
      as [(l1 & l2 & E & _ & _ & _ & -> & _ & Hset)|(l1 & c & l2 & E & _)]; [|destruct l1; discriminate].
    destruct (Hset (HLeaf (BSingle (mkE k1 v1 (hash k1))))) as (s' & -> & Hw'). cbn [bind].
    destruct l1; [|discriminate]. destruct l2; [|discriminate]. eauto. }
  destruct E1 as (s1 & E1 & Hw). rewrite E1. cbn [bind]. eexists. split; [reflexivity|].
  cbn [hm_root hm_degree hm_size]. intros fuel'. destruct fuel' as [|fuel']; [reflexivity|].
  cbn [hn_insert]. rewrite index_one. cbn [bind unwrap].
  destruct (SparseProofs.sa_access ubits dbg Hu s1 _ 0 Hw Hu)
    as [(l1 & l2 & E & B & A & _)|(l1 & c & l2 & E & B & A & _ & (w & -> & _) & _)].
  - exfalso. assert (Hin : In (0, HLeaf (BSingle (mkE k1 v1 (hash k1)))) (l1 ++ l2)) by (rewrite <- E; now left).
    apply in_app_iff in Hin as [Hin|Hin]; [apply B in Hin|apply A in Hin]; simpl in Hin; lia.
  - assert (c = HLeaf (BSingle (mkE k1 v1 (hash k1)))).
    { destruct l1 as [|p l1]; cbn [app] in E; [congruence|]. destruct l1; discriminate. }
    subst c. cbn [bind]. rewrite degree_one_leaf; [reflexivity|assumption|].
    unfold matches_key. cbn [e_key e_hash]. rewrite Hk. apply andb_false_r.
Qed.
Print Assumptions C16_degree_one_refuted.

(** ** C17 *)
(** [same] is the outcome of the pointer comparison: when it is true the roots are one and the
    same node (see the heap layer for why). *)
Theorem C17_hash_map_equality : forall (K V Q : Type) (ubits : N) (dbg : bool)
  (keq : K -> K -> bool) (borrow : K -> Q) (qeq : Q -> Q -> bool)
  (hash1 hash2 : K -> N) (qhash1 qhash2 : Q -> N),
  ubits <= 64 -> key_laws keq borrow qeq ->
  hash_laws borrow qeq hash1 qhash1 -> hash_laws borrow qeq hash2 qhash2 ->
  forall (fuel : nat) (d1 d2 : N) (m1 m2 : hmap K V) (f1 f2 : fmap K V),
  hm_reached ubits dbg keq borrow qeq hash1 qhash1 fuel d1 m1 f1 ->
  hm_reached ubits dbg keq borrow qeq hash2 qhash2 fuel d2 m2 f2 ->
  forall (veq : V -> V -> bool) (same : bool),
  (same = true -> hm_root m1 = hm_root m2 /\ forall v, veq v v = true) ->
  exists r, hm_eq ubits dbg keq fuel veq hash2 same m1 m2 = Ok r /\
            (r = true <-> fm_equal keq veq f1 f2).
Proof.
  intros K V Q ubits dbg keq borrow qeq hash1 hash2 qhash1 qhash2 Hub KL HL1 HL2 fuel d1 d2 m1 m2 f1 f2 H1 H2 veq same Hs.
  destruct (reached_rep _ _ _ _ _ _ _ _ _ _ _ _ _ _ Hub KL HL1 H1) as (b1 & Hb1 & -> & Hd1 & Hf1 & Hr1).
  destruct (reached_rep _ _ _ _ _ _ _ _ _ _ _ _ _ _ Hub KL HL2 H2) as (b2 & Hb2 & -> & Hd2 & Hf2 & Hr2).
  apply (hm_eq_ok ubits dbg Hub keq (key_laws_id keq borrow qeq KL) hash1 hash2
    (hash_laws_id _ _ _ _ _ _ _ KL HL1) (hash_laws_id _ _ _ _ _ _ _ KL HL2) b1 b2 Hb1 Hb2 Hd1 Hd2 fuel Hf1 Hf2); assumption.
Qed.
Print Assumptions C17_hash_map_equality.

(** Extensional equality is an equivalence when value equality is. *)
Theorem C17_extensional_equality_equivalence : forall (K V : Type) (keq : K -> K -> bool) (veq : V -> V -> bool),
  (forall v, veq v v = true) -> (forall v w, veq v w = true -> veq w v = true) ->
  (forall u v w, veq u v = true -> veq v w = true -> veq u w = true) ->
  (forall m : fmap K V, fm_equal keq veq m m) /\
  (forall m1 m2 : fmap K V, fm_equal keq veq m1 m2 -> fm_equal keq veq m2 m1) /\
  (forall m1 m2 m3 : fmap K V, fm_equal keq veq m1 m2 -> fm_equal keq veq m2 m3 -> fm_equal keq veq m1 m3).
Proof.
  intros K V keq veq Hr Hs Ht. unfold fm_equal. repeat split.
  - intros m k. destruct (find _ m); auto.
  - intros m1 m2 H k. specialize (H k). destruct (find _ m1), (find _ m2); auto.
  - intros m1 m2 m3 H H' k. specialize (H k). specialize (H' k).
    destruct (find _ m1), (find _ m2), (find _ m3); try contradiction; eauto.
Qed.
Print Assumptions C17_extensional_equality_equivalence.

(** ** C45, for HashTrieMap: with a value equality that is not reflexive the answer depends on
    physical sharing.  The same reachable map compared with itself and with an equal copy that
    is not shared gives different answers. *)
Theorem C45_hash_map_sharing_visible_refuted : forall (ubits : N) (dbg : bool) (fuel : nat),
  exists (m : hmap N N) (fm : fmap N N) (veq : N -> N -> bool),
    (16 <= ubits <= 64 -> (2 * digits 2 < fuel)%nat ->
       hm_reached ubits dbg N.eqb (fun k => k) N.eqb (fun _ => 0) (fun _ => 0) fuel 2 m fm) /\
    (16 <= ubits <= 64 -> (2 * digits 2 < fuel)%nat ->
       hm_eq ubits dbg N.eqb fuel veq (fun _ => 0) true m m = Ok true /\
       hm_eq ubits dbg N.eqb fuel veq (fun _ => 0) false m m = Ok false).
Proof.
  intros ubits dbg fuel.
  assert (KL : key_laws N.eqb (fun k => k) N.eqb).
  { constructor; intros; try apply N.eqb_refl; try reflexivity;
      repeat match goal with H : (_ =? _) = true |- _ => apply N.eqb_eq in H end; subst; apply N.eqb_refl. }
  assert (HL : hash_laws (fun k : N => k) N.eqb (fun _ => 0) (fun _ => 0)).
  { constructor; try reflexivity. }
  destruct (andb (16 <=? ubits) (andb (ubits <=? 64) (2 * digits 2 <? fuel)%nat)) eqn:E.
  - apply andb_true_iff in E as [E1 E2]. apply andb_true_iff in E2 as [E2 E3].
    apply N.leb_le in E1. apply N.leb_le in E2. apply Nat.ltb_lt in E3.
    assert (Hsup : supported ubits 2) by (exists 1; repeat split; lia).
    destruct (C12_hash_map_history N N N ubits dbg N.eqb (fun k => k) N.eqb (fun _ => 0) (fun _ => 0) E2 KL HL 2 fuel Hsup E3
      [MInsert 1 7]) as (m0 & m & E0 & Em).
    assert (Hr : hm_reached ubits dbg N.eqb (fun k => k) N.eqb (fun _ => 0) (fun _ => 0) fuel 2 m [(1, 7)]).
    { split; [assumption|]. split; [assumption|]. exists m0, [MInsert 1 7], [MoUnit]. repeat split; auto. }
    exists m, [(1, 7)], (fun _ _ => false). split; [auto|]. intros _ _. split; [reflexivity|].
    destruct (C17_hash_map_equality N N N ubits dbg N.eqb (fun k => k) N.eqb (fun _ => 0) (fun _ => 0) (fun _ => 0) (fun _ => 0)
      E2 KL HL HL fuel 2 2 m m _ _ Hr Hr (fun _ _ => false) false ltac:(discriminate)) as (r & -> & Hiff).
    destruct r; [|reflexivity]. destruct Hiff as [Hiff _]. specialize (Hiff eq_refl 1). cbn in Hiff. discriminate.
  - exists (mkHM new_empty_branch 0 2), [], (fun _ _ => false).
    split; intros [H1 H2] H3; exfalso.
    all: apply N.leb_le in H1, H2; apply Nat.ltb_lt in H3; rewrite H1, H2, H3 in E; discriminate.
Qed.
Print Assumptions C45_hash_map_sharing_visible_refuted.

(** The exact answer of [==], for every [PartialEq] of the values, lawful or not: the maps
    share their root or are equal entry by entry. *)
Theorem C45_hash_map_partial_eq : forall (K V Q : Type) (ubits : N) (dbg : bool)
  (keq : K -> K -> bool) (borrow : K -> Q) (qeq : Q -> Q -> bool)
  (hash1 hash2 : K -> N) (qhash1 qhash2 : Q -> N),
  ubits <= 64 -> key_laws keq borrow qeq ->
  hash_laws borrow qeq hash1 qhash1 -> hash_laws borrow qeq hash2 qhash2 ->
  forall (fuel : nat) (d1 d2 : N) (m1 m2 : hmap K V) (f1 f2 : fmap K V),
  hm_reached ubits dbg keq borrow qeq hash1 qhash1 fuel d1 m1 f1 ->
  hm_reached ubits dbg keq borrow qeq hash2 qhash2 fuel d2 m2 f2 ->
  forall (veq : V -> V -> bool) (same : bool),
  exists r, hm_eq ubits dbg keq fuel veq hash2 same m1 m2 = Ok r /\
            (r = true <-> same = true \/ fm_equal keq veq f1 f2).
Proof.
  intros K V Q ubits dbg keq borrow qeq hash1 hash2 qhash1 qhash2 Hub KL HL1 HL2 fuel d1 d2 m1 m2 f1 f2 H1 H2 veq same.
  destruct same; [exists true; split; [reflexivity|tauto]|].
  destruct (C17_hash_map_equality K V Q ubits dbg keq borrow qeq hash1 hash2 qhash1 qhash2 Hub KL HL1 HL2 fuel d1 d2
    m1 m2 f1 f2 H1 H2 veq false ltac:(discriminate)) as (r & E & Hr).
  exists r. split; [exact E|]. rewrite Hr. intuition discriminate.
Qed.
Print Assumptions C45_hash_map_partial_eq.

Lemma fm_equal_self : forall K V (keq : K -> K -> bool) (veq : V -> V -> bool) (fm : fmap K V) x,
  (forall k, keq k k = true) -> (forall a b, keq a b = true -> keq b a = true) ->
  unique_keys keq fm -> In x fm -> veq (snd x) (snd x) = false -> ~ fm_equal keq veq fm fm.
Proof.
  intros K V keq veq fm x Hrf Hsy Hu Hx Hv H. specialize (H (fst x)).
  assert (E : find (fun y => keq (fst y) (fst x)) fm = Some x).
  { clear H. induction Hu as [|y fm Hy Hu IH]; [destruct Hx|]. cbn [find]. destruct Hx as [->|Hx]; [now rewrite Hrf|].
    rewrite Forall_forall in Hy. destruct (keq (fst y) (fst x)) eqn:Eq; [|auto]. rewrite (Hy x Hx) in Eq. discriminate. }
  rewrite E in H. congruence.
Qed.

(** So whenever some stored value is not equal to itself the answer depends on physical
    sharing: a map equals its clone but not an unshared copy. *)
Theorem C45_hash_map_non_reflexive_refuted : forall (K V Q : Type) (ubits : N) (dbg : bool)
  (keq : K -> K -> bool) (borrow : K -> Q) (qeq : Q -> Q -> bool) (hash : K -> N) (qhash : Q -> N),
  ubits <= 64 -> key_laws keq borrow qeq -> hash_laws borrow qeq hash qhash ->
  forall (fuel : nat) (degree : N) (m : hmap K V) (fm : fmap K V),
  hm_reached ubits dbg keq borrow qeq hash qhash fuel degree m fm ->
  forall (veq : V -> V -> bool) x, In x fm -> veq (snd x) (snd x) = false ->
  hm_eq ubits dbg keq fuel veq hash true m m = Ok true /\
  hm_eq ubits dbg keq fuel veq hash false m m = Ok false.
Proof.
  intros K V Q ubits dbg keq borrow qeq hash qhash Hub KL HL fuel degree m fm H veq x Hx Hv. split; [reflexivity|].
  destruct (C45_hash_map_partial_eq K V Q ubits dbg keq borrow qeq hash hash qhash qhash Hub KL HL HL fuel degree degree
    m m fm fm H H veq false) as (r & -> & Hr). destruct r; [|reflexivity]. exfalso.
  destruct (proj1 Hr eq_refl) as [|He]; [discriminate|].
  destruct (reached_rep _ _ _ _ _ _ _ _ _ _ _ _ _ _ Hub KL HL H) as (b & _ & _ & _ & _ & (es & _ & _ & _ & Hu & _)).
  exact (fm_equal_self K V keq veq fm x (kl_refl _ _ _ (key_laws_id _ _ _ KL)) (kl_sym _ _ _ (key_laws_id _ _ _ KL)) Hu Hx Hv He).
Qed.
Print Assumptions C45_hash_map_non_reflexive_refuted.

(** ** C19 *)
Theorem C19_parallel_iteration : forall (K V Q : Type) (ubits : N) (dbg : bool)
  (keq : K -> K -> bool) (borrow : K -> Q) (qeq : Q -> Q -> bool) (hash : K -> N) (qhash : Q -> N),
  ubits <= 64 -> key_laws keq borrow qeq -> hash_laws borrow qeq hash qhash ->
  forall (fuel : nat) (degree : N) (m : hmap K V) (fm : fmap K V),
  hm_reached ubits dbg keq borrow qeq hash qhash fuel degree m fm ->
  (* [l] is what the sequential iterator delivers *)
  exists l, hm_entries m = Ok l /\ Permutation l fm /\
    forall t, exists outs, p_drive t (p_new m) = Ok outs /\ delivers t l outs /\
      (never_full t -> concat outs = l).
Proof.
  intros K V Q ubits dbg keq borrow qeq hash qhash Hub KL HL fuel degree m fm H.
  destruct (reached_rep _ _ _ _ _ _ _ _ _ _ _ _ _ _ Hub KL HL H) as (b & Hb & -> & Hd & Hf & Hr).
  destruct (hi_new_rep ubits dbg b Hb Hd Hub keq borrow qeq hash qhash KL HL fuel Hf m fm Hr) as (l & es & Hi & El & R & Hp).
  destruct (hm_entries_ok ubits dbg b Hb Hd Hub keq borrow qeq hash qhash KL HL fuel Hf m fm Hr) as (l' & E' & _ & Hk).
  assert (Hl : hm_entries m = Ok l).
  { unfold hm_entries. eapply sim_collect; [exact (iter_sim_sim0 _ _ _ _ _ (hi_sim (strict:=true) ubits dbg b Hb Hd Hub keq borrow qeq hash qhash KL HL fuel Hf))|exact Hi|].
    destruct Hr as (_ & _ & _ & _ & _ & Hs & _). apply Permutation_length in Hp. lia. }
  exists l. split; [exact Hl|]. split; [exact Hp|].
  pose proof (hrep_entries ubits b _ _ _ _ R) as Hes.
  assert (Hpr : p_good (p_new m) /\ p_seq (p_new m) = l).
  { unfold p_new. destruct es as [|e es].
    - destruct (root_empty ubits dbg b Hb Hd Hub keq borrow qeq hash qhash KL HL fuel Hf _ _ R) as [Hx|Hx]; [congruence|].
      rewrite Hx, El. cbn. split; [intros c []|reflexivity].
    - assert (Hg : good (hm_root m)) by (eapply hrep_good; [exact R|discriminate]).
      split; [now apply from_node_good|]. rewrite (from_node_seq _ Hg). unfold kvs. now rewrite <- Hes, El. }
  destruct Hpr as (Hg & Hs). intros t. destruct (p_drive_ok t _ Hg) as (outs & E & Hdel). rewrite Hs in Hdel.
  exists outs. repeat split; auto. intros Hn. eapply delivers_never; eassumption.
Qed.
Print Assumptions C19_parallel_iteration.

(** ** C20 *)
Definition hs_reached {T Q} (ubits : N) (dbg : bool) (teq : T -> T -> bool) (borrow : T -> Q)
  (qeq : Q -> Q -> bool) (hash : T -> N) (qhash : Q -> N) (fuel : nat)
  (degree : N) (m : hset T) (s : list T) : Prop :=
  supported ubits degree /\ (2 * digits degree < fuel)%nat /\
  exists m0 ops outs,
    hs_new_with_degree ubits degree = Ok m0 /\
    exec_m (hs_step ubits dbg teq borrow qeq hash qhash fuel) ops m0 = Ok (m, outs) /\
    s = fst (exec_s (set_spec teq borrow qeq) ops []).

Lemma hs_hist : forall T Q ubits dbg teq (borrow : T -> Q) qeq hash qhash b fuel ops,
  ubits <= 64 -> key_laws teq borrow qeq -> hash_laws borrow qeq hash qhash ->
  0 < b -> 2 ^ b <= ubits -> (2 * D b < fuel)%nat ->
  exists m0 m, hs_new_with_degree ubits (2 ^ b) = Ok m0 /\
    exec_m (hs_step ubits dbg teq borrow qeq hash qhash fuel) ops m0 = Ok (m, snd (exec_s (set_spec teq borrow qeq) ops [])) /\
    hs_rep ubits b teq hash m (fst (exec_s (set_spec teq borrow qeq) ops [])).
Proof.
  intros T Q ubits dbg teq borrow qeq hash qhash b fuel ops Hub KL HL Hb Hd Hf.
  destruct (hm_new_ok (strict:=true) (V := unit) ubits dbg b Hb Hd Hub teq borrow qeq hash qhash KL HL fuel Hf) as (m0 & E & H).
  destruct (sim_exec _ _ _ _ (hs_rep ubits b teq hash) _ (set_spec teq borrow qeq)
    (hs_step_ok ubits dbg b Hb Hd Hub teq borrow qeq hash qhash KL HL fuel Hf) ops m0 [] H) as (m & E' & H').
  exists m0, m. auto.
Qed.

Lemma hs_reached_rep : forall T Q ubits dbg teq (borrow : T -> Q) qeq hash qhash fuel degree m s,
  ubits <= 64 -> key_laws teq borrow qeq -> hash_laws borrow qeq hash qhash ->
  hs_reached ubits dbg teq borrow qeq hash qhash fuel degree m s ->
  exists b, 0 < b /\ degree = 2 ^ b /\ 2 ^ b <= ubits /\ (2 * D b < fuel)%nat /\ hs_rep ubits b teq hash m s.
Proof.
  intros T Q ubits dbg teq borrow qeq hash qhash fuel degree m s Hub KL HL
    ((b & Hb & -> & Hd) & Hf & m0 & ops & outs & E0 & E & ->).
  rewrite digits_D in Hf. exists b. repeat split; auto.
  destruct (hs_hist T Q ubits dbg teq borrow qeq hash qhash b fuel ops Hub KL HL Hb Hd Hf) as (m0' & m' & E0' & E' & H).
  assert (m0' = m0) by congruence. subst m0'. assert (m' = m) by congruence. now subst m'.
Qed.

Theorem C20_hash_set_history : forall (T Q : Type) (ubits : N) (dbg : bool)
  (teq : T -> T -> bool) (borrow : T -> Q) (qeq : Q -> Q -> bool) (hash : T -> N) (qhash : Q -> N),
  ubits <= 64 -> key_laws teq borrow qeq -> hash_laws borrow qeq hash qhash ->
  forall (degree : N) (fuel : nat), supported ubits degree -> (2 * digits degree < fuel)%nat ->
  forall (ops : list (set_op T Q)), exists m0 m l,
    hs_new_with_degree ubits degree = Ok m0 /\
    exec_m (hs_step ubits dbg teq borrow qeq hash qhash fuel) ops m0
      = Ok (m, snd (exec_s (set_spec teq borrow qeq) ops [])) /\
    (* iteration yields each element once *)
    hs_elems m = Ok l /\ Permutation l (fst (exec_s (set_spec teq borrow qeq) ops [])).
Proof.
  intros T Q ubits dbg teq borrow qeq hash qhash Hub KL HL degree fuel (b & Hb & -> & Hd) Hf ops.
  rewrite digits_D in Hf.
  destruct (hs_hist T Q ubits dbg teq borrow qeq hash qhash b fuel ops Hub KL HL Hb Hd Hf) as (m0 & m & E0 & E & H).
  destruct (hs_elems_ok ubits dbg b Hb Hd Hub teq borrow qeq hash qhash KL HL fuel Hf m _ H) as (l & El & Hp).
  exists m0, m, l. auto.
Qed.
Print Assumptions C20_hash_set_history.

Theorem C20_hash_set_relations : forall (T Q : Type) (ubits : N) (dbg : bool)
  (teq : T -> T -> bool) (borrow : T -> Q) (qeq : Q -> Q -> bool)
  (hash1 hash2 : T -> N) (qhash1 qhash2 : Q -> N),
  ubits <= 64 -> key_laws teq borrow qeq ->
  hash_laws borrow qeq hash1 qhash1 -> hash_laws borrow qeq hash2 qhash2 ->
  forall (fuel : nat) (d1 d2 : N) (m1 m2 : hset T) (s1 s2 : list T),
  hs_reached ubits dbg teq borrow qeq hash1 qhash1 fuel d1 m1 s1 ->
  hs_reached ubits dbg teq borrow qeq hash2 qhash2 fuel d2 m2 s2 ->
  forall same, (same = true -> hm_root m1 = hm_root m2) ->
  (exists r, hs_is_subset ubits dbg teq fuel hash2 same m1 m2 = Ok r /\ (r = true <-> subset teq s1 s2)) /\
  (exists r, hs_is_superset ubits dbg teq fuel hash1 same m1 m2 = Ok r /\ (r = true <-> subset teq s2 s1)) /\
  (exists r, hs_is_disjoint ubits dbg teq fuel hash2 m1 m2 = Ok r /\ (r = true <-> disjoint teq s1 s2)) /\
  (exists r, hs_eq ubits dbg teq fuel hash2 same m1 m2 = Ok r /\ (r = true <-> set_equal teq s1 s2)) /\
  (forall x, exists r, hs_contains ubits dbg borrow qeq qhash1 fuel m1 (borrow x) = Ok r /\ (r = true <-> has teq s1 x)).
Proof.
  intros T Q ubits dbg teq borrow qeq hash1 hash2 qhash1 qhash2 Hub KL HL1 HL2 fuel d1 d2 m1 m2 s1 s2 H1 H2 same Hs.
  destruct (hs_reached_rep _ _ _ _ _ _ _ _ _ _ _ _ _ Hub KL HL1 H1) as (b1 & Hb1 & -> & Hd1 & Hf1 & Hr1).
  destruct (hs_reached_rep _ _ _ _ _ _ _ _ _ _ _ _ _ Hub KL HL2 H2) as (b2 & Hb2 & -> & Hd2 & Hf2 & Hr2).
  pose proof (key_laws_id teq borrow qeq KL) as KI.
  pose proof (hash_laws_id _ _ _ _ _ _ _ KL HL1) as HI1. pose proof (hash_laws_id _ _ _ _ _ _ _ KL HL2) as HI2.
  split; [|split; [|split; [|split]]].
  - apply (hs_is_subset_ok ubits dbg Hub teq KI hash1 hash2 HI1 HI2 b1 b2 Hb1 Hb2 Hd1 Hd2 fuel Hf1 Hf2); assumption.
  - unfold hs_is_superset.
    apply (hs_is_subset_ok ubits dbg Hub teq KI hash2 hash1 HI2 HI1 b2 b1 Hb2 Hb1 Hd2 Hd1 fuel Hf2 Hf1); auto.
    intros E. symmetry. auto.
  - apply (hs_is_disjoint_ok ubits dbg Hub teq KI hash1 hash2 HI1 HI2 b1 b2 Hb1 Hb2 Hd1 Hd2 fuel Hf1 Hf2); assumption.
  - apply (hs_eq_ok ubits dbg Hub teq KI hash1 hash2 HI1 HI2 b1 b2 Hb1 Hb2 Hd1 Hd2 fuel Hf1 Hf2); assumption.
  - intros x.
    destruct (hs_step_ok ubits dbg b1 Hb1 Hd1 Hub teq borrow qeq hash1 qhash1 KL HL1 fuel Hf1 (SetContains (borrow x)) m1 s1 Hr1) as (m' & E & _).
    cbn [hs_step set_spec fst snd] in E. destruct (hs_contains _ _ _ _ _ _ _ _) as [r| |]; cbn [bind] in E; try discriminate.
    assert (r = is_some (set_find borrow qeq (borrow x) s1)) by congruence. subst r.
    eexists. split; [reflexivity|]. rewrite (has_find teq KI). unfold set_find.
    rewrite (find_ext_in _ _ (fun t => teq t x) s1); [reflexivity|]. intros t _. symmetry. apply (kl_borrow _ _ _ KL).
Qed.
Print Assumptions C20_hash_set_relations.

(** ** C33, for hash maps and sets: the last binding of a key wins *)
Lemma fold_insert_find : forall K V Q (keq : K -> K -> bool) (borrow : K -> Q) qeq, key_laws keq borrow qeq ->
  forall (kvs : list (K * V)) q acc,
  fm_find borrow qeq q (fold_left (fun acc x => fm_insert keq (fst x) (snd x) acc) kvs acc) =
  match find (fun x => qeq (borrow (fst x)) q) (rev kvs) with Some x => Some x | None => fm_find borrow qeq q acc end.
Proof.
  intros K V Q keq borrow qeq KL. induction kvs as [|[k v] kvs IH]; intros q acc; [reflexivity|].
  cbn [fold_left rev fst snd]. rewrite IH, find_app. cbn [find fst].
  destruct (find (fun x => qeq (borrow (fst x)) q) (rev kvs)); [reflexivity|].
  unfold fm_find, fm_insert. cbn [find fst]. destruct (qeq (borrow k) q) eqn:Hq; [reflexivity|].
  clear IH. induction acc as [|a acc IHa]; [reflexivity|]. cbn [filter].
  destruct (keq (fst a) k) eqn:Ea; cbn [negb find].
  - rewrite (keq_qeq keq borrow qeq KL _ _ q Ea), Hq. exact IHa.
  - destruct (qeq (borrow (fst a)) q); [reflexivity|exact IHa].
Qed.

Theorem C33_hash_map_from_iter : forall (K V Q : Type) (ubits : N) (dbg : bool)
  (keq : K -> K -> bool) (borrow : K -> Q) (qeq : Q -> Q -> bool) (hash : K -> N) (qhash : Q -> N),
  ubits <= 64 -> supported ubits ubits -> key_laws keq borrow qeq -> hash_laws borrow qeq hash qhash ->
  forall (fuel : nat), (2 * digits ubits < fuel)%nat ->
  forall (kvs : list (K * V)), exists m,
    hm_from_iter ubits dbg keq hash fuel kvs = Ok m /\ hm_macro ubits dbg keq hash fuel kvs = Ok m /\
    forall q, hm_get_key_value ubits dbg borrow qeq qhash fuel m q
      = Ok (find (fun x => qeq (borrow (fst x)) q) (rev kvs)).
Proof.
  intros K V Q ubits dbg keq borrow qeq hash qhash Hub (b & Hb & Eu & Hd) KL HL fuel Hf kvs.
  assert (Hd' : 2 ^ b <= ubits) by lia.
  assert (Hf' : (2 * D b < fuel)%nat) by (rewrite <- digits_D, <- Eu; exact Hf).
  destruct (hm_new_ok (strict:=true) (V := V) ubits dbg b Hb Hd' Hub keq borrow qeq hash qhash KL HL fuel Hf') as (m0 & E & H).
  destruct (hm_extend_ok ubits dbg b Hb Hd' Hub keq borrow qeq hash qhash KL HL fuel Hf' kvs m0 [] H) as (m & E' & H').
  assert (En : hm_from_iter ubits dbg keq hash fuel kvs = Ok m).
  { unfold hm_from_iter, hm_new, DEFAULT_DEGREE. rewrite Eu at 2. rewrite E. exact E'. }
  exists m. split; [exact En|]. split; [exact En|]. intros q.
  destruct (hm_find_ok ubits dbg b Hb Hd' Hub keq borrow qeq hash qhash KL HL fuel Hf' m _ q H') as (o & E1 & Eo).
  unfold hm_get_key_value. rewrite E1. cbn [bind]. unfold kv in Eo. rewrite Eo.
  rewrite (fold_insert_find K V Q keq borrow qeq KL). now destruct (find _ (rev kvs)).
Qed.
Print Assumptions C33_hash_map_from_iter.

(** ** C44, for HashTrieMap *)
Theorem C44_hash_map_get_mut : forall (K V Q : Type) (ubits : N) (dbg : bool)
  (keq : K -> K -> bool) (borrow : K -> Q) (qeq : Q -> Q -> bool) (hash : K -> N) (qhash : Q -> N),
  ubits <= 64 -> key_laws keq borrow qeq -> hash_laws borrow qeq hash qhash ->
  forall (fuel : nat) (degree : N) (m : hmap K V) (fm : fmap K V),
  hm_reached ubits dbg keq borrow qeq hash qhash fuel degree m fm ->
  forall (q : Q) (f : V -> V), exists m' o,
    hm_get ubits dbg borrow qeq qhash fuel m q = Ok o /\
    hm_get_mut ubits dbg borrow qeq qhash fuel m q f = Ok (m', o) /\
    hm_len m' = hm_len m /\
    forall p, exists x, hm_get_key_value ubits dbg borrow qeq qhash fuel m p = Ok x /\
      hm_get_key_value ubits dbg borrow qeq qhash fuel m' p =
      Ok (if qeq p q then option_map (fun kv => (fst kv, f (snd kv))) x else x).
Proof.
  intros K V Q ubits dbg keq borrow qeq hash qhash Hub KL HL fuel degree m fm H q f.
  destruct (reached_rep _ _ _ _ _ _ _ _ _ _ _ _ _ _ Hub KL HL H) as (b & Hb & -> & Hd & Hf & Hr).
  destruct (hm_get_mut_ok ubits dbg b Hb Hd Hub keq borrow qeq hash qhash KL HL fuel Hf m fm q f Hr) as (m' & E & Hr').
  assert (G : forall (m : hmap K V) (fm : fmap K V) q, hm_rep ubits b keq hash m fm ->
    hm_get_key_value ubits dbg borrow qeq qhash fuel m q = Ok (fm_find borrow qeq q fm)).
  { intros m1 f1 q1 H1.
    destruct (hm_find_ok ubits dbg b Hb Hd Hub keq borrow qeq hash qhash KL HL fuel Hf m1 f1 q1 H1) as (o & E1 & Eo).
    unfold hm_get_key_value. rewrite E1. cbn [bind]. unfold kv in Eo. now rewrite Eo. }
  exists m', (option_map snd (fm_find borrow qeq q fm)). split.
  { destruct (hm_find_ok ubits dbg b Hb Hd Hub keq borrow qeq hash qhash KL HL fuel Hf m fm q Hr) as (o & E1 & Eo).
    unfold hm_get. rewrite E1, <- Eo. cbn [bind]. now destruct o. }
  split; [exact E|]. split.
  { unfold hm_len. destruct Hr as (? & _ & _ & _ & _ & -> & _), Hr' as (? & _ & _ & _ & _ & -> & _).
    unfold fm_modify. apply map_length. }
  intros p. exists (fm_find borrow qeq p fm). split; [now apply G|]. rewrite (G m' _ p Hr'). f_equal.
  unfold fm_find, fm_modify. clear - KL. induction fm as [|a fm IH]; cbn [map find]; [now destruct (qeq p q)|].
  destruct (qeq (borrow (fst a)) q) eqn:Ea; cbn [fst].
  - destruct (qeq (borrow (fst a)) p) eqn:Ep; [|exact IH].
    assert (Hpq : qeq p q = true) by (apply (kl_trans _ _ _ KL p (borrow (fst a)) q); [now apply (kl_sym _ _ _ KL)|assumption]).
    rewrite Hpq. reflexivity.
  - destruct (qeq (borrow (fst a)) p) eqn:Ep; [|exact IH].
    destruct (qeq p q) eqn:Hpq; [|reflexivity].
    pose proof (kl_trans _ _ _ KL _ _ _ Ep Hpq). congruence.
Qed.
Print Assumptions C44_hash_map_get_mut.

(** ** Concrete cases: keys equal but distinguishable, hash functions with and without
    collisions, smallest and largest degree. *)
Definition ex_keq (a c : N * N) : bool := fst a =? fst c.
Definition ex_hash (k : N * N) : N := (fst k / 2) mod 2 ^ 64.
Definition ex_qhash (q : N) : N := (q / 2) mod 2 ^ 64.

Example ex_key_laws : key_laws ex_keq fst N.eqb.
Proof.
  constructor; intros; try apply N.eqb_refl; try reflexivity;
    repeat match goal with H : (_ =? _) = true |- _ => apply N.eqb_eq in H end; subst; apply N.eqb_refl.
Qed.
Example ex_hash_laws : hash_laws fst N.eqb ex_hash ex_qhash.
Proof.
  constructor.
  - reflexivity.
  - intros a c E. apply N.eqb_eq in E. now subst.
  - intros q. apply N.mod_lt. discriminate.
Qed.
Definition ex_ops : list (map_op (N * N) N N) :=
  [MInsert (2, 0) 10; MInsert (3, 0) 11; MInsert (9, 0) 12; MInsert (2, 1) 13; MGetKeyValue 2;
   MSize; MRemoveMut 3; MRemoveMut 3; MGetMut 9 (N.add 1); MGet 9; MContains 3; MSize].
Definition ex_m (degree : N) : res (hmap (N * N) N * list (map_obs (N * N) N)) :=
  let! m0 := hm_new_with_degree 64 degree in
  exec_m (hm_step 64 true ex_keq fst N.eqb ex_hash ex_qhash 129) ex_ops m0.
Example C12_example :
  supported 64 2 /\ supported 64 64 /\ (2 * digits 2 < 129)%nat /\ (2 * digits 64 < 129)%nat /\
  (exists m2, ex_m 2 = Ok (m2, [MoUnit; MoUnit; MoUnit; MoUnit; MoKV (Some ((2, 1), 13)); MoNat 3;
     MoBool true; MoBool false; MoVal (Some 12); MoVal (Some 13); MoBool false; MoNat 2])) /\
  (exists m64, ex_m 64 = Ok (m64, [MoUnit; MoUnit; MoUnit; MoUnit; MoKV (Some ((2, 1), 13)); MoNat 3;
     MoBool true; MoBool false; MoVal (Some 12); MoVal (Some 13); MoBool false; MoNat 2])).
Proof.
  split; [exists 1; repeat split; discriminate|]. split; [exists 6; repeat split; discriminate|].
  split; [vm_compute; repeat constructor|]. split; [vm_compute; repeat constructor|].
  split; eexists; vm_compute; reflexivity.
Qed.

(** A reachable map with a collision bucket. *)
Example C13_C14_C15_example : exists m fm,
  hm_reached 64 true ex_keq fst N.eqb ex_hash ex_qhash 129 2 m fm /\
  hm_entries m = Ok [((9, 0), 12); ((3, 0), 11); ((2, 0), 10)] /\
  p_drive (SSplit (SSplit SSkip (SFold (fun l => Nat.leb 1 (length l))) (fun _ => true))
                  (SFold (fun _ => false)) (fun _ => false)) (p_new m)
    = Ok [[((9, 0), 12)]; [((3, 0), 11); ((2, 0), 10)]].
Proof.
  eexists _, _. split.
  - split; [exists 1; repeat split; discriminate|]. split; [vm_compute; repeat constructor|].
    eexists _, [MInsert (2, 0) 10; MInsert (3, 0) 11; MInsert (9, 0) 12], _.
    split; [reflexivity|]. split; [vm_compute; reflexivity|reflexivity].
  - split; vm_compute; reflexivity.
Qed.

(** Two maps with different hashers and degrees that are equal as maps. *)
Example C17_example : exists m1 m2 f1 f2,
  hm_reached 64 true N.eqb (fun k => k) N.eqb (fun _ => 5) (fun _ => 5) 129 4 m1 f1 /\
  hm_reached 64 true N.eqb (fun k => k) N.eqb (fun k => k mod 2 ^ 64) (fun k => k mod 2 ^ 64) 129 64 m2 f2 /\
  hm_eq 64 true N.eqb 129 N.eqb (fun k => k mod 2 ^ 64) false m1 m2 = Ok true.
Proof.
  eexists _, _, _, _. split; [|split].
  - split; [exists 2; repeat split; discriminate|]. split; [vm_compute; repeat constructor|].
    eexists _, [MInsert 1 10; MInsert 2 20; MInsert 3 30; MRemove 2], _.
    split; [reflexivity|]. split; [vm_compute; reflexivity|reflexivity].
  - split; [exists 6; repeat split; discriminate|]. split; [vm_compute; repeat constructor|].
    eexists _, [MInsert 3 30; MInsert 1 7; MInsert 1 10], _.
    split; [reflexivity|]. split; [vm_compute; reflexivity|reflexivity].
  - vm_compute. reflexivity.
Qed.

Example C20_example : exists m1 m2 s1 s2,
  hs_reached 64 true N.eqb (fun k => k) N.eqb (fun _ => 5) (fun _ => 5) 129 4 m1 s1 /\
  hs_reached 64 true N.eqb (fun k => k) N.eqb (fun k => k mod 2 ^ 64) (fun k => k mod 2 ^ 64) 129 64 m2 s2 /\
  hs_is_subset 64 true N.eqb 129 (fun k => k mod 2 ^ 64) false m1 m2 = Ok true /\
  hs_is_superset 64 true N.eqb 129 (fun _ => 5) false m1 m2 = Ok false.
Proof.
  eexists _, _, _, _. split; [|split].
  - split; [exists 2; repeat split; discriminate|]. split; [vm_compute; repeat constructor|].
    eexists _, [SetInsert 1; SetInsert 2; SetInsert 3; SetRemove 2], _.
    split; [reflexivity|]. split; [vm_compute; reflexivity|reflexivity].
  - split; [exists 6; repeat split; discriminate|]. split; [vm_compute; repeat constructor|].
    eexists _, [SetInsert 3; SetInsert 1; SetInsert 1; SetInsert 99], _.
    split; [reflexivity|]. split; [vm_compute; reflexivity|reflexivity].
  - split; vm_compute; reflexivity.
Qed.

Example C33_example : exists m,
  hm_from_iter 64 true ex_keq ex_hash 129 [((2, 0), 1); ((3, 0), 2); ((2, 9), 3)] = Ok m /\
  hm_get_key_value 64 true fst N.eqb ex_qhash 129 m 2 = Ok (Some ((2, 9), 3)).
Proof. eexists. split; [vm_compute; reflexivity|]. vm_compute. reflexivity. Qed.
