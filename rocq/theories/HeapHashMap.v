(** * HashTrieMap on the shared heap: whole calls *)
From Coq Require Import List NArith Arith Lia Bool Permutation.
From Verif Require Import Base Spec SpecMap Sim ListModel ListProofs SparseModel SparseProofs HashModel HashProofs HashHist
  PermSolve HeapModel HeapProofs HeapSafe HeapLooks HeapClient HeapList HeapListProofs HeapVec HeapVecProofs HeapHash HeapHashProofs
  HeapHashNodes HeapHashIter.
Import ListNotations.
Local Open Scope prog_scope.

(** ** Hashes that agree in every digit are equal *)
Lemma digit_bit : forall b d h k, (k < b)%N -> N.testbit (idx b d h) k = N.testbit h (k + N.of_nat d * b).
Proof.
  intros b d h k L. unfold idx. rewrite N.land_spec, N.shiftr_spec'.
  replace (2 ^ b - 1)%N with (N.ones b) by (rewrite N.ones_equiv; lia).
  rewrite N.ones_spec_low by exact L. now rewrite andb_true_r.
Qed.

Lemma small_bit : forall h j, (h < 2 ^ 64)%N -> (64 <= j)%N -> N.testbit h j = false.
Proof.
  intros h j L J. destruct (N.eq_dec h 0) as [->|Z]; [apply N.bits_0|].
  apply N.bits_above_log2. apply N.log2_lt_pow2; [lia|].
  eapply N.lt_le_trans; [exact L|]. apply N.pow_le_mono_r; lia.
Qed.

Lemma digits_eq : forall b h h', (0 < b)%N -> (h < 2 ^ 64)%N -> (h' < 2 ^ 64)%N ->
  (forall d, d < D b -> idx b d h = idx b d h') -> h = h'.
Proof.
  intros b h h' Hb L L' H. apply N.bits_inj. intros j.
  destruct (N.lt_ge_cases j 64) as [J|J]; [|now rewrite !small_bit].
  pose proof (N.div_mod j b ltac:(lia)) as E. pose proof (N.mod_lt j b ltac:(lia)) as M.
  set (d := N.to_nat (j / b)).
  assert (Ed : N.of_nat d = (j / b)%N) by apply N2Nat.id.
  assert (Dd : d < D b).
  { unfold D. assert (j / b < (64 + b - 1) / b)%N; [|unfold d; lia].
    apply N.lt_le_trans with (j / b + 1)%N; [lia|]. apply N.div_le_lower_bound; [lia|].
    clear - E M J Hb. revert E M. generalize (j mod b)%N (j / b)%N. intros m q E M.
    rewrite N.mul_add_distr_l. lia. }
  replace j with (j mod b + N.of_nat d * b)%N by (rewrite Ed; lia).
  rewrite <- !digit_bit by exact M. now rewrite (H d Dd).
Qed.

Section Cap.
Variable ubits : N.
Variable dbg : bool.
Variable b : N.
Hypothesis Hb : (0 < b)%N.
Hypothesis Hdeg : (2 ^ b <= ubits)%N.
Hypothesis Hub : (ubits <= 64)%N.
Context {K V : Type}.
Notation entry := (hentry K V).
Notation node := (hnode K V).
Context {strict : bool}.    (* see [st] in HashProofs.v *)

Definition same (h : N) (x : entry) : bool := (e_hash x =? h)%N.

(** The bucket of a hash has at most one entry more than there are entries with that hash. *)
Lemma pcap_ok : forall h, (h < 2 ^ 64)%N -> forall r d (n : node) es cap, @hrepg ubits b K V strict r d n es -> d + r = D b ->
  (forall x, In x es -> (e_hash x < 2 ^ 64)%N /\ forall d', d' < d -> idx b d' (e_hash x) = idx b d' h) ->
  length (filter (same h) es) < cap -> pcap ubits dbg (2 ^ b) r d h n cap.
Proof.
  intros h Hh. induction r as [|r IH]; intros d n es cap R Dd A L; destruct n as [s|[e|l]]; cbn [hrepg pcap bcap] in *;
    try lia; try contradiction.
  - destruct R as (_ & Rl & L2). unfold l_len. destruct Rl as (_ & _ & ->). split; [lia|].
    assert (E : filter (same h) es = es).
    { clear L L2. induction es as [|x es IH]; [reflexivity|]. cbn [filter].
      assert (X : e_hash x = h).
      { destruct (A x ltac:(now left)) as [Lx Ax]. apply (digits_eq b); trivial. intros d' Ld. apply Ax. lia. }
      unfold same at 1. rewrite X, N.eqb_refl. f_equal. apply IH. intros y I. apply A. now right. }
    rewrite E in L. lia.
  - intros i c Ei Es. destruct R as (al & Hw & Hc).
    rewrite (index_ok ubits dbg b Hb Hdeg Hub) in Ei by lia.
    destruct (Nat.ltb_spec d (D b)) as [_|]; [|lia]. injection Ei as <-.
    destruct (sa_access ubits dbg (Hu0 ubits dbg b Hb Hdeg Hub) s al (idx b d h) Hw (idx_lt ubits dbg b Hb Hdeg Hub d h))
      as [(l1 & l2 & -> & B & Ab & Eg & _)|(l1 & c' & l2 & -> & B & Ab & Eg & _)]; rewrite Eg in Es; [discriminate|].
    injection Es as ->.
    destruct (chl_focus ubits dbg b Hb Hdeg Hub _ _ (same h) _ _ _ _ _ Hc B Ab) as (es1 & ec & es2 & -> & N1 & N2 & C1 & C2 & Hr & _ & Hd & _).
    { intros e He. apply N.eqb_eq in He. now rewrite He. }
    apply (IH (S d) c ec); trivial; [lia| |].
    + intros x I. destruct (A x) as [Lx Ax]; [apply in_app_iff; right; apply in_app_iff; now left|].
      split; trivial. intros d' Ld. destruct (Nat.eq_dec d' d) as [->|]; [now apply Hd|apply Ax; lia].
    + rewrite !filter_app, !app_length in L. lia.
Qed.
End Cap.

(** ** Reading a trie *)
Section Read_.
Context {K V : Type}.
Notation C := (tcell K V).
Notation own := (@own C).
Notation ptree := (@ptree C).
Notation safe := (safe (@tkids K V)).
Notation entry := (hentry K V).
Notation node := (hnode K V).
Notation tchain := (chain (T := entry) TLN TLE terep).

(** A whole trie read through the pointers: a device of the proofs of C38, not code. *)
Fixpoint tl_read (f : nat) (cur : option addr) : prog C (list hewh) :=
  match cur with
  | None => Ret []
  | Some a =>
      match f with
      | 0 => Fail
      | S f' =>
          read_node t_isN a (fun v nx => read_elem t_isE v (fun e =>
            let* r := tl_read f' nx in Ret (e :: r)))
      end
  end.

Fixpoint tread_entries (es : list hewh) : prog C (list (hentry K V)) :=
  match es with
  | [] => Ret []
  | e :: es' =>
      read_entry e (fun kv =>
        let* r := tread_entries es' in Ret (mkE (fst kv) (snd kv) (snd e) :: r))
  end.
Fixpoint tread_all (rd : addr -> prog C (hnode K V)) (l : list addr) : prog C (list (hnode K V)) :=
  match l with
  | [] => Ret []
  | a :: l' => let* n := rd a in let* r := tread_all rd l' in Ret (n :: r)
  end.
Fixpoint tread (f : nat) (a : addr) : prog C (hnode K V) :=
  match f with
  | 0 => Fail
  | S f' =>
      Read a (fun c =>
        match c with
        | TB s => let* ns := tread_all (tread f') (sa_array s) in Ret (HBranch (mkSA (sa_bitmap s) ns))
        | TS e => read_entry e (fun kv => Ret (HLeaf (BSingle (mkE (fst kv) (snd kv) (snd e)))))
        | TC l =>
            let* es := tl_read (hl_len l) (hl_head l) in
            let* l' := tread_entries es in
            Ret (HLeaf (BCollision (mkL l' (last_error l') (hl_len l))))
        | _ => Fail
        end)
  end.

Lemma tchain_read : forall s us (G : list own) f, tchain s us -> (forall t, In t us -> lent t G) -> length s <= f ->
  safe 0 (tl_read f (hd_error (map pa us))) G
    (fun r G' => G' = G /\ Forall2 (fun e x => snd e = e_hash x /\ lent (et e x) G) r s).
Proof.
  induction s as [|x s IH]; intros us G f Ch H L.
  - inversion Ch; subst. cbn [map hd_error]. destruct f; cbn [tl_read]; apply safe_ret; (split; [reflexivity|constructor]).
  - destruct (chain_cons_lent x s us G Ch H) as (a & v & e & us' & -> & E & Ch' & Ln & Lv & Le & H').
    cbn [length] in L. destruct f as [|f]; [lia|]. cbn [tl_read].
    eexists _, _. split; [exact Ln|]. intros _. cbn [t_isN].
    eexists _, _. split; [exact Lv|]. intros _. cbn [t_isE].
    eapply (safe_seq _ _ _ 0 0 0 _ G []); [apply (IH us' G f Ch' H' ltac:(lia))|perm| |lia].
    intros r G' (-> & F). apply safe_ret. rewrite app_nil_r. split; [reflexivity|]. now constructor.
Qed.

Lemma tread_entries_ok : forall r (s : list entry) (G : list own),
  Forall2 (fun e x => snd e = e_hash x /\ lent (et e x) G) r s ->
  safe 0 (tread_entries r) G (fun s' G' => G' = G /\ s' = s).
Proof.
  intros r s G F. induction F as [|e x r s (E & L) F IH]; cbn [tread_entries]; [now apply safe_ret|].
  apply (entry_lent _ e x); trivial.
  seqq 0 0 G (@nil own) (fun s' G' => G' = G /\ s' = s); [exact IH|].
  intros s' G' (-> & ->). rewrite app_nil_r. apply safe_ret. split; [reflexivity|]. cbn [fst snd]. rewrite E. now destruct x.
Qed.

Lemma tread_all_ok : forall rd (ns : list node) (ts : list ptree) (G : list own),
  Forall2 ntree ns ts ->
  (forall n t, In n ns -> In t ts -> ntree n t -> safe 0 (rd (pa t)) G (fun n' G' => G' = G /\ n' = n)) ->
  safe 0 (tread_all rd (map pa ts)) G (fun ns' G' => G' = G /\ ns' = ns).
Proof.
  intros rd ns ts G F. induction F as [|n t ns ts Hn F IH]; intros H; cbn [map tread_all]; [now apply safe_ret|].
  seqq 0 0 G (@nil own) (fun (n' : node) G' => G' = G /\ n' = n); [apply H; trivial; now left|].
  intros n' G' (-> & ->). rewrite app_nil_r.
  seqq 0 0 G (@nil own) (fun ns' G' => G' = G /\ ns' = ns); [apply IH; intros; apply H; trivial; now right|].
  intros ns' G' (-> & ->). rewrite app_nil_r. now apply safe_ret.
Qed.

Lemma tread_ok : forall f r (n : node) t (G : list own), tall r n -> r < f -> ntree n t -> lent t G ->
  safe 0 (tread f (pa t)) G (fun n' G' => G' = G /\ n' = n).
Proof.
  induction f as [|f IH]; intros r n t G T L H Lt; [lia|]. inversion H as [n' a c ts Hc]; subst. cbn [tread pa].
  eexists _, _. split; [exact Lt|]. intros _.
  assert (Lk : forall u, In u ts -> lent u G) by (intros u I; eapply lent_kid; [exact Lt|exact I]).
  inversion Hc as [s s' ts' E1 E2 F|e x E|L' l s ts' R1 R2]; subst.
  - rewrite E1, E2. destruct r as [|r]; [destruct T|]. cbn [tall] in T. rewrite Forall_forall in T.
    seqq 0 0 G (@nil own) (fun ns' G' => G' = G /\ ns' = sa_array s).
    + apply tread_all_ok; [exact F|]. intros n u In_ Iu Hu. apply (IH r); auto. lia.
    + intros ns' G' (-> & ->). rewrite app_nil_r. apply safe_ret. split; [reflexivity|]. now destruct s.
  - apply (entry_lent _ e x); [apply Lk; now left|]. apply safe_ret. split; [reflexivity|].
    cbn [fst snd]. rewrite E. now destruct x.
  - destruct (trep_lent _ _ _ G R2 Lk) as (us & Ch & Lu & Eh & El). rewrite Eh, El.
    seqq 0 0 G (@nil own) (fun r G' => G' = G /\ Forall2 (fun e x => snd e = e_hash x /\ lent (et e x) G) r s);
      [apply tchain_read; trivial|].
    intros r0 G' (-> & F). rewrite app_nil_r.
    seqq 0 0 G (@nil own) (fun s' G' => G' = G /\ s' = s); [now apply tread_entries_ok|].
    intros s' G' (-> & ->). rewrite app_nil_r. apply safe_ret. split; [reflexivity|].
    destruct R1 as (<- & E3 & E4). rewrite <- E3, <- E4. now destruct l.
Qed.
End Read_.

(** ** Calls *)
Section M.
Variable ubits : N.
Variable dbg : bool.
Variable b : N.
Hypothesis Hb : (0 < b)%N.
Hypothesis Hdeg : (2 ^ b <= ubits)%N.
Hypothesis Hub : (ubits <= 64)%N.
Context {K V Q : Type}.
Variable keq : K -> K -> bool.
Variable borrow : K -> Q.
Variable qeq : Q -> Q -> bool.
Variable hash : K -> N.
Variable qhash : Q -> N.
Hypothesis KL : key_laws keq borrow qeq.
Hypothesis HL : hash_laws borrow qeq hash qhash.
Variable fuel : nat.
Hypothesis Hfuel : (2 * D b < fuel)%nat.
Notation C := (tcell K V).
Notation own := (@own C).
Notation ptree := (@ptree C).
Notation safe := (safe (@tkids K V)).
Notation entry := (hentry K V).
Notation node := (hnode K V).
Notation mspec := (@map_spec K V Q keq borrow qeq).

(** What the calls mean on finite maps. *)
Definition ht_call_spec (o : ht_call K V Q) (m : fmap K V) : fmap K V * ht_result K V :=
  match o with
  | TOp o => (fst (mspec o m), TObs (snd (mspec o m)))
  | TSteps k => (m, THints (map (fun i => (length m - i, i <? length m)) (List.seq 0 k)))
  | TCount p => (m, TNum (length (filter p m)))
  end.

(** What they may allocate: [D b] is the number of levels of the trie, and
    [clash h m] the number of entries whose hash is [h]. *)
Definition clash (h : N) (m : fmap K V) : nat := length (filter (fun x => (hash (fst x) =? h)%N) m).
Definition ht_cost (o : ht_call K V Q) (m : fmap K V) : nat :=
  match o with
  | TOp (MInsert k _) | TOp (MInsertMut k _) => 2 * D b + 2 * clash (hash k) m + 6
  | TOp (MRemove q) | TOp (MRemoveMut q) => 2 * D b + 2 * clash (qhash q) m + 3
  | TOp (MGetMut q _) => D b + 2 * clash (qhash q) m + 8
  | _ => 0
  end.

Definition hhrep (m : hht) (fm : fmap K V) (G : list own) : Prop :=
  exists w : hmap K V, hm_rep ubits b keq hash w fm /\ hh_size m = hm_size w /\ hh_degree m = hm_degree w /\
    exists t, ntree (hm_root w) t /\ pa t = hh_root m /\ G = [Tree t].

Lemma hash_lt : forall k, (hash k < 2 ^ 64)%N.
Proof. intros k. rewrite (hl_borrow _ _ _ _ HL). apply (hl_range _ _ _ _ HL). Qed.

Lemma rep_pcap : forall {strict : bool} es fm (n : node) h, @hrepg ubits b K V strict (D b) 0 n es -> hash_ok hash es -> Permutation (map kv es) fm ->
  (h < 2 ^ 64)%N -> pcap ubits dbg (2 ^ b) (D b) 0 h n (clash h fm + 1).
Proof.
  intros strict es fm n h R Hh P L. eapply (pcap_ok ubits dbg b Hb Hdeg Hub); [exact L|exact R|reflexivity| |].
  - intros x I. split; [rewrite (Hh x I); apply hash_lt|]. intros d' Ld. lia.
  - unfold clash. rewrite <- (Permutation_length (Permutation_filter _ _ _ _ P)), filter_map, map_length.
    rewrite (filter_ext_in (same h) (fun e => (hash (fst (kv e)) =? h)%N)); [lia|].
    intros x I. unfold same. now rewrite (Hh x I).
Qed.

Lemma hhrep_inv : forall m fm G, hhrep m fm G ->
  exists w es a c ts, hm_rep ubits b keq hash w fm /\ hrep ubits b (D b) 0 (hm_root w) es /\ hash_ok hash es /\
    Permutation (map kv es) fm /\ unique_keys keq fm /\ hm_size w = length fm /\ hm_degree w = (2 ^ b)%N /\
    m = mkHH a (hm_size w) (2 ^ b) /\ ncont (hm_root w) c ts /\ G = [Tree (PT a c ts)].
Proof.
  intros [a0 sz dg] fm G (w & R & Es & Ed & t & T & Ep & ->). cbn in *.
  assert (R' := R). destruct R' as (es & Hr & Hh & Hp & Hu & Hs & Hd). inversion T as [n a c ts Hc]; subst.
  exists w, es, a, c, ts. cbn [pa]. rewrite Hd. splits; trivial.
Qed.

Lemma hhrep_intro : forall w fm c ts a, hm_rep ubits b keq hash w fm -> ncont (hm_root w) c ts ->
  hhrep (mkHH a (hm_size w) (hm_degree w)) fm [Tree (PT a c ts)].
Proof.
  intros w fm c ts a R Hc. exists w. splits; trivial. exists (PT a c ts). splits; trivial. now constructor.
Qed.

Lemma hh_new_ok : safe 1 (@hh_new ubits K V (2 ^ b)) [] (fun m G => hhrep m [] G).
Proof.
  destruct (hm_new_ok (strict:=true) (V := V) ubits dbg b Hb Hdeg Hub keq borrow qeq hash qhash KL HL fuel Hfuel) as (m0 & E & R).
  unfold hh_new. assert (X : hm_root (m0 : hmap K V) = new_empty_branch).
  { unfold hm_new_with_degree in E. destruct (negb (is_power_of_two (2 ^ b))); [discriminate|].
    destruct (negb (2 ^ b <=? DEFAULT_DEGREE ubits)%N); [discriminate|]. injection E as <-. reflexivity. }
  rewrite E. cbn [lift pbind]. exists 0, [], []. splits; trivial. intros a. apply safe_ret.
  apply (hhrep_intro m0 [] (TB sa_new) []); trivial. rewrite X. apply sim_cont, sim_new.
Qed.

Lemma hh_clone_ok : forall m fm G, hhrep m fm G ->
  safe 0 (hh_clone m) G (fun m' G' => exists G1 G2, G' = G1 ++ G2 /\ hhrep m fm G1 /\ hhrep m' fm G2).
Proof.
  intros m fm G R. assert (R' := R). destruct R' as (w & Rw & Es & Ed & [a c ts] & T & Ep & ->). unfold hh_clone.
  rewrite <- Ep. cbn [pa]. eexists _, _. split; [apply lent_in; now left|]. apply safe_ret.
  eexists [_], [_]. split; [reflexivity|]. split; exact R.
Qed.

Lemma hh_drop_ok : forall m fm G, hhrep m fm G -> safe 0 (hh_drop m) G (fun _ G' => G' = []).
Proof using Hb Hdeg Hub.
  clear Hfuel. intros m fm G (w & Rw & Es & Ed & t & T & Ep & ->). unfold hh_drop. rewrite <- Ep.
  destruct Rw as (es & Hr & _ & _ & _ & _ & Hd). apply (tdrop_ok _ (D b) (hm_root w)); [eapply hrep_tall; exact Hr| |exact T].
  unfold hh_levels. rewrite Ed, Hd, N.log2_pow2 by lia. unfold D. lia.
Qed.


(** [make_mut] of the root, a call on its contents, and the contents put back. *)
Lemma root_ok : forall X Y (n n' : node) a c ts (f : X) n1 F (p : C -> prog C (C * X)) (k : X -> addr -> prog C Y) (Qp : Y -> list own -> Prop),
  ncont n c ts ->
  safe n1 (p c) (F ++ map Tree ts) (leaves f n') ->
  (forall a' c' ts', ncont n' c' ts' -> safe 0 (k f a') [Tree (PT a' c' ts')] Qp) ->
  safe (n1 + 1) (let* (r, c) := tmake_mut a in let* (c', x) := p c in Fill r c' (k x r)) (F ++ [Tree (PT a c ts)]) Qp.
Proof using.
  clear Hfuel Hub Hdeg Hb. intros X Y n n' a c ts f n1 F p k Qp Hc Hp Hk.
  seqq 1 n1 [Tree (PT a c ts)] F (fun (r : addr * C) G => exists a', r = (a', c) /\ G = Held a' :: map Tree ts);
    [apply (tmake_mut_ok n); exact Hc|].
  intros [a1 c1] G (a' & E & ->). injection E as -> ->.
  seqq n1 0 (F ++ map Tree ts) [@Held C a'] (@leaves K V X f n'); [exact Hp|].
  intros [c' x] G (c2 & ts' & E & Hc' & ->). injection E as -> ->.
  exists ts', []. split; [perm|]. split; [exact (ncont_kids _ _ _ Hc')|]. apply Hk. exact Hc'.
Qed.

Lemma hh_insert_mut_ok : forall m fm G k v, hhrep m fm G ->
  safe (2 * D b + 2 * clash (hash k) fm + 6) (hh_insert_mut ubits dbg keq hash fuel m k v) G
    (fun m' G' => hhrep m' (fm_insert keq k v fm) G').
Proof.
  intros m fm G k v R. destruct (hhrep_inv _ _ _ R) as (w & es & a & c & ts & Rw & Hr & Hh & Hp & Hu & Hs & Hd & -> & Hc & ->).
  destruct (hm_insert_ok ubits dbg b Hb Hdeg Hub keq borrow qeq hash qhash KL HL fuel Hfuel w fm k v Rw) as (w' & E & R').
  unfold hm_insert_mut in E. inv E x Ex. destruct x as [n' f]. injection E as <-.
  unfold hh_insert_mut. cbn [hh_root hh_size hh_degree].
  exists (2 * D b + 2 * (clash (hash k) fm + 1) + 2 + 1), [], [Tree (PT a c ts)].
  split; [lia|]. split; [apply Permutation_refl|]. split; [reflexivity|]. intros p. rewrite Hd in Ex.
  set (x := mkE k v (hash k)).
  eapply (root_ok _ _ (hm_root w) n' a c ts f _ [Tree (et (p, hash k) x)]); [exact Hc| |].
  - apply (tn_insert_ok ubits dbg keq b Hb Hdeg Hub (D b) 0 (hm_root w) c ts x (p, hash k)); trivial.
    + eapply hrep_tall. exact Hr.
    + eapply rep_pcap; eauto. apply hash_lt.
    + lia.
  - intros a' c' ts' Hc'. apply safe_ret. rewrite <- Hd.
    exact (hhrep_intro _ _ c' ts' a' R' Hc').
Qed.

Lemma hh_remove_mut_ok : forall m fm G q, hhrep m fm G ->
  safe (2 * D b + 2 * clash (qhash q) fm + 3) (hh_remove_mut ubits dbg borrow qeq qhash fuel m q) G
    (fun x G' => snd x = is_some (fm_find borrow qeq q fm) /\ hhrep (fst x) (fm_remove borrow qeq q fm) G').
Proof.
  intros m fm G q R. destruct (hhrep_inv _ _ _ R) as (w & es & a & c & ts & Rw & Hr & Hh & Hp & Hu & Hs & Hd & -> & Hc & ->).
  destruct (hm_remove_ok ubits dbg b Hb Hdeg Hub keq borrow qeq hash qhash KL HL fuel Hfuel w fm q Rw) as (w' & E & R' & _).
  unfold hm_remove_mut in E. inv E x Ex. destruct x as [n' f].
  unfold hh_remove_mut. cbn [hh_root hh_size hh_degree].
  replace (2 * D b + 2 * clash (qhash q) fm + 3) with (2 * D b + 2 * (clash (qhash q) fm + 1) + 1) by lia.
  rewrite Hd in Ex.
  eapply (root_ok _ _ (hm_root w) n' a c ts f _ []); [exact Hc| |].
  - apply (tn_remove_ok ubits dbg borrow qeq q (qhash q) b Hb Hdeg Hub (D b) 0 (hm_root w) es); trivial.
    + lia.
    + eapply (root_empty ubits dbg b Hb Hdeg Hub keq borrow qeq hash qhash KL HL fuel Hfuel). exact Hr.
    + eapply (rep_uniq_q ubits dbg b Hb Hdeg Hub keq borrow qeq hash qhash KL HL fuel Hfuel); eauto.
    + eapply rep_pcap; eauto. apply (hl_range _ _ _ _ HL).
  - intros a' c' ts' Hc'. destruct f.
    + inv E sz Ez. rewrite Ez. cbn [lift pbind]. injection E as <- <-. apply safe_ret. split; [reflexivity|].
      cbn [fst]. rewrite <- Hd. exact (hhrep_intro _ _ c' ts' a' R' Hc').
    + injection E as <- <-. apply safe_ret. split; [reflexivity|].
      cbn [fst]. rewrite <- Hd. exact (hhrep_intro _ _ c' ts' a' R' Hc').
Qed.

Lemma hh_get_mut_ok : forall m fm G q g, hhrep m fm G ->
  safe (D b + 2 * clash (qhash q) fm + 8) (hh_get_mut ubits dbg borrow qeq qhash fuel m q g) G
    (fun x G' => snd x = option_map snd (fm_find borrow qeq q fm) /\ hhrep (fst x) (fm_modify borrow qeq q g fm) G').
Proof.
  intros m fm G q g R. destruct (hhrep_inv _ _ _ R) as (w & es & a & c & ts & Rw & Hr & Hh & Hp & Hu & Hs & Hd & -> & Hc & ->).
  destruct (hm_get_mut_ok ubits dbg b Hb Hdeg Hub keq borrow qeq hash qhash KL HL fuel Hfuel w fm q g Rw) as (w' & E & R').
  unfold hm_get_mut in E. inv E x Ex. destruct x as [n' f]. injection E as <- <-.
  unfold hh_get_mut. cbn [hh_root hh_size hh_degree].
  replace (D b + 2 * clash (qhash q) fm + 8) with (D b + 2 * (clash (qhash q) fm + 1) + 5 + 1) by lia.
  rewrite Hd in Ex.
  eapply (root_ok _ _ (hm_root w) n' a c ts f _ []); [exact Hc| |].
  - apply (tn_get_mut_ok ubits dbg borrow qeq q (qhash q) b g (D b) 0 (hm_root w)); trivial.
    + eapply hrep_tall. exact Hr.
    + eapply rep_pcap; eauto. apply (hl_range _ _ _ _ HL).
  - intros a' c' ts' Hc'. apply safe_ret. split; [reflexivity|]. cbn [fst]. rewrite <- Hd.
    exact (hhrep_intro _ _ c' ts' a' R' Hc').
Qed.

Lemma hh_get_ok : forall X m fm G q (k : option (K * V) -> prog C X) n Qp, hhrep m fm G ->
  safe n (k (fm_find borrow qeq q fm)) G Qp ->
  safe n (let* o := hh_get ubits dbg borrow qeq qhash fuel m q in k o) G Qp.
Proof.
  intros X m fm G q k n Qp R S.
  destruct (hhrep_inv _ _ _ R) as (w & es & a & c & ts & Rw & Hr & Hh & Hp & Hu & Hs & Hd & -> & Hc & ->).
  destruct (hm_find_ok ubits dbg b Hb Hdeg Hub keq borrow qeq hash qhash KL HL fuel Hfuel w fm q Rw) as (o & E & Eo).
  unfold hm_find in E. rewrite Hd in E. unfold hh_get. cbn [hh_root hh_degree pbind].
  assert (La : lent (PT a c ts) [Tree (PT a c ts)]) by (apply lent_in; now left).
  eexists _, _. split; [exact La|]. intros _. apply safe_assoc.
  seqq 0 n [Tree (PT a c ts)] (@nil own) (fun r G' => G' = [Tree (PT a c ts)] /\ found [Tree (PT a c ts)] o r).
  - apply (tn_get_ok ubits dbg borrow qeq q (qhash q) fuel (hm_root w) c ts); trivial.
    intros t I. eapply lent_kid; [exact La|exact I].
  - intros r G' (-> & Fo). rewrite app_nil_r. destruct o as [x|]; cbn [found option_map] in *.
    + destruct Fo as (e & -> & Ee & Le). rewrite <- Eo in S. unfold read_entry. cbn [pbind].
      eexists _, _. split; [exact Le|]. intros _. cbn [pbind]. exact S.
    + subst r. cbn [pbind]. now rewrite <- Eo in S.
Qed.

Lemma fwd_hints : forall X k (l : list X),
  map (fun x => (fst x, is_some (snd x))) (fwd_spec k l) = map (fun i => (length l - i, i <? length l)) (List.seq 0 k).
Proof using.
  intros X. induction k as [|k IH]; intros l; [reflexivity|]. cbn [fwd_spec map fst snd]. rewrite IH.
  cbn [List.seq map]. f_equal.
  - rewrite Nat.sub_0_r. now destruct l.
  - rewrite <- seq_shift, map_map. apply map_ext. intros i. destruct l as [|x l]; reflexivity.
Qed.

(** Iterating: at most [3 * D b + 3] reads for an entry, and one to begin. *)
Lemma hh_iter_reads : forall m fm G, hhrep m fm G -> exists l, Permutation l fm /\
  (forall k, looks ((3 * D b + 3) * Nat.min (length fm) k + 1) (hh_iter fuel k m) G (fun r => r = fwd_spec k l)) /\
  looks ((3 * D b + 3) * length fm + 1) (hh_entries fuel m) G (fun r => r = l).
Proof.
  intros m fm G (w & Rw & Es & Ed & t & T & Ep & ->). assert (R' := Rw). destruct R' as (es & Hr & _ & Hp & _ & Hz & _).
  assert (Le : length es = length fm) by (rewrite <- (Permutation_length Hp); now rewrite map_length).
  exists (map kv_of es). split; [exact Hp|]. rewrite <- Le. split; [intros k|].
  - apply (hh_iter_looks true ubits b _ (D b) fuel k m (hm_root w) t es); trivial; [lia|apply lent_in; now left|congruence].
  - apply (hh_entries_looks true ubits b _ (D b) fuel m (hm_root w) t es); trivial; [lia|apply lent_in; now left|congruence].
Qed.

Lemma remove_absent : forall q (fm : fmap K V), is_some (fm_find borrow qeq q fm) = false -> fm_remove borrow qeq q fm = fm.
Proof using.
  intros q fm E. unfold fm_remove. apply (nomatch_filter (fun x => qeq (borrow (fst x)) q)). apply find_none.
  unfold fm_find in E. destruct (find _ fm); [discriminate|reflexivity].
Qed.

Theorem hh_step_ok : forall o m fm G, hhrep m fm G ->
  safe (ht_cost o fm) (hh_step ubits dbg keq borrow qeq hash qhash fuel o m) G
    (fun r G' => snd r = snd (ht_call_spec o fm) /\ hhrep (fst r) (fst (ht_call_spec o fm)) G').
Proof.
  intros o m fm G R.
  destruct o as [[k v|k v|q|q|q f|q|q|q| | |]|k|p]; cbn [hh_step ht_cost ht_call_spec map_spec fst snd].
  - unfold hh_insert. apply safe_assoc.
    seq 0 (2 * D b + 2 * clash (hash k) fm + 6) G (@nil own) ltac:(apply (hh_clone_ok m fm G R)).
    intros n G' (G1 & G2 & -> & R1 & R2).
    seq (2 * D b + 2 * clash (hash k) fm + 6) 0 G2 G1 ltac:(apply (hh_insert_mut_ok n fm G2 k v R2)).
    intros n' G' R'.
    seq 0 0 G1 G' ltac:(apply (hh_drop_ok m fm G1 R1)). intros [] G3 ->. apply safe_ret. auto.
  - seq (2 * D b + 2 * clash (hash k) fm + 6) 0 G (@nil own) ltac:(apply (hh_insert_mut_ok m fm G k v R)).
    intros n' G' R'. apply safe_ret. rewrite app_nil_r. auto.
  - unfold hh_remove. apply safe_assoc.
    seq 0 (2 * D b + 2 * clash (qhash q) fm + 3) G (@nil own) ltac:(apply (hh_clone_ok m fm G R)).
    intros n G' (G1 & G2 & -> & R1 & R2). apply safe_assoc.
    seq (2 * D b + 2 * clash (qhash q) fm + 3) 0 G2 G1 ltac:(apply (hh_remove_mut_ok n fm G2 q R2)).
    intros [n' y] G' [Eb R']. cbn [fst snd] in *. subst y.
    destruct (is_some (fm_find borrow qeq q fm)) eqn:E.
    + cbn [pbind]. seq 0 0 G1 G' ltac:(apply (hh_drop_ok m fm G1 R1)). intros [] G3 ->. apply safe_ret. auto.
    + apply safe_assoc. seq 0 0 G1 G' ltac:(apply (hh_clone_ok m fm G1 R1)).
      intros c G3 (G4 & G5 & -> & R4 & R5). apply safe_assoc.
      seq 0 0 G' (G4 ++ G5) ltac:(apply (hh_drop_ok n' _ G' R')). intros [] G6 ->. cbn [pbind].
      seq 0 0 G4 G5 ltac:(apply (hh_drop_ok m fm G4 R4)). intros [] G7 ->. apply safe_ret.
      split; [reflexivity|]. cbn [fst app]. now rewrite (remove_absent q fm E).
  - seq (2 * D b + 2 * clash (qhash q) fm + 3) 0 G (@nil own) ltac:(apply (hh_remove_mut_ok m fm G q R)).
    intros [n' y] G' [Eb R']. cbn [fst snd] in *. subst y. apply safe_ret. rewrite app_nil_r. auto.
  - seq (D b + 2 * clash (qhash q) fm + 8) 0 G (@nil own) ltac:(apply (hh_get_mut_ok m fm G q f R)).
    intros [n' x] G' [Eb R']. cbn [fst snd] in *. subst x. apply safe_ret. rewrite app_nil_r. auto.
  - apply (hh_get_ok _ m fm); trivial. now apply safe_ret.
  - apply (hh_get_ok _ m fm); trivial. now apply safe_ret.
  - apply (hh_get_ok _ m fm); trivial. now apply safe_ret.
  - apply safe_ret. cbn [fst snd]. split; [|exact R]. destruct R as (w & (es & _ & _ & _ & _ & E & _) & Hz & _). congruence.
  - apply safe_ret. cbn [fst snd]. split; [|exact R]. destruct R as (w & (es & _ & _ & _ & _ & E & _) & Hz & _).
    rewrite Hz, E. now destruct fm.
  - seq 0 0 G (@nil own) ltac:(apply (hh_clone_ok m fm G R)).
    intros c G' (G1 & G2 & -> & R1 & R2).
    seq 0 0 G2 G1 ltac:(apply (hh_drop_ok c fm G2 R2)). intros [] G3 ->. apply safe_ret. auto.
  - destruct (hh_iter_reads m fm G R) as (l & P & Hi & _).
    seqq 0 0 G (@nil own) (fun r G' => G' = G /\ r = fwd_spec k l); [eapply looks_safe, Hi|].
    intros r G' (-> & ->). rewrite app_nil_r. apply safe_ret. cbn [fst snd]. split; [|exact R].
    now rewrite fwd_hints, (Permutation_length P).
  - destruct (hh_iter_reads m fm G R) as (l & P & _ & He).
    seqq 0 0 G (@nil own) (fun r G' => G' = G /\ r = l); [eapply looks_safe, He|].
    intros r G' (-> & ->). rewrite app_nil_r. apply safe_ret. cbn [fst snd]. split; [|exact R].
    now rewrite (Permutation_length (Permutation_filter _ p _ _ P)).
Qed.
End M.
