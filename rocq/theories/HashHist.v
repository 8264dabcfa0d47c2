(** Histories, iteration and reachable states of HashTrieMap. *)
From Coq Require Import List NArith Arith Bool Lia Permutation.
From Verif Require Import Base Spec SpecMap Sim ListModel ListProofs SparseModel SparseProofs HashModel HashProofs.
Import ListNotations.

(** ** Association lists up to permutation *)
Lemma FOP_perm : forall A (R : A -> A -> Prop), (forall a b, R a b -> R b a) ->
  forall l l', Permutation l l' -> ForallOrdPairs R l -> ForallOrdPairs R l'.
Proof.
  intros A R Hs l l' H. induction H; intros HF.
  - assumption.
  - inversion HF; subst. constructor; [|auto]. eapply Permutation_Forall; eassumption.
  - inversion HF as [|? ? H1 H2]; subst. inversion H2 as [|? ? H3 H4]; subst.
    inversion H1; subst. repeat constructor; auto.
  - auto.
Qed.

Lemma FOP_map : forall A B (f : A -> B) (R : B -> B -> Prop) l,
  ForallOrdPairs R (map f l) <-> ForallOrdPairs (fun a b => R (f a) (f b)) l.
Proof.
  intros A B f R. induction l as [|a l IH]; simpl; split; intros H; try constructor; inversion H; subst.
  - rewrite Forall_map in *. assumption.
  - now apply IH.
  - now rewrite Forall_map.
  - now apply IH.
Qed.

Lemma FOP_filter : forall A (R : A -> A -> Prop) p l, ForallOrdPairs R l -> ForallOrdPairs R (filter p l).
Proof.
  intros A R p. induction l as [|a l IH]; intros H; simpl; [assumption|]. inversion H; subst.
  destruct (p a); [constructor|]; auto. rewrite Forall_forall in *. intros x Hx.
  apply filter_In in Hx as [Hx _]. auto.
Qed.

Lemma find_hd_filter : forall A (m : A -> bool) l, find m l = hd_error (filter m l).
Proof. intros A m. induction l as [|a l IH]; simpl; [reflexivity|]. destruct (m a); auto. Qed.

Lemma Permutation_filter : forall A (m : A -> bool) l l', Permutation l l' -> Permutation (filter m l) (filter m l').
Proof.
  intros A m l l' H. induction H; simpl; auto.
  - destruct (m x); auto.
  - destruct (m x), (m y); auto. constructor.
  - etransitivity; eassumption.
Qed.

Lemma find_perm : forall A (m : A -> bool) l l', Permutation l l' -> uniq m l -> find m l = find m l'.
Proof.
  intros A m l l' H Hu. rewrite !find_hd_filter. apply (Permutation_filter _ m) in H. unfold uniq in Hu.
  destruct (filter m l) as [|a [|b l0]]; [| |simpl in Hu; lia].
  - apply Permutation_nil in H. now rewrite H.
  - apply Permutation_length_1_inv in H. now rewrite H.
Qed.

Lemma find_map : forall A B (f : A -> B) (p : B -> bool) l,
  find p (map f l) = option_map f (find (fun a => p (f a)) l).
Proof. intros. induction l as [|a l IH]; simpl; [reflexivity|]. destruct (p (f a)); auto. Qed.
Lemma filter_map : forall A B (f : A -> B) (p : B -> bool) l,
  filter p (map f l) = map f (filter (fun a => p (f a)) l).
Proof. intros. induction l as [|a l IH]; simpl; [reflexivity|]. destruct (p (f a)); simpl; congruence. Qed.
Lemma find_ext_in : forall A (p q : A -> bool) l, (forall a, In a l -> p a = q a) -> find p l = find q l.
Proof.
  intros A p q. induction l as [|a l IH]; intros H; simpl; [reflexivity|].
  rewrite <- (H a (or_introl eq_refl)). destruct (p a); [reflexivity|]. apply IH. intros x Hx. apply H. now right.
Qed.
Lemma uniq_ext_in : forall A (p q : A -> bool) l, (forall a, In a l -> p a = q a) -> uniq p l <-> uniq q l.
Proof. intros A p q l H. unfold uniq. now rewrite (filter_ext_in _ _ _ H). Qed.

Section KL.
Context {K V Q : Type}.
Variable keq : K -> K -> bool.
Variable borrow : K -> Q.
Variable qeq : Q -> Q -> bool.
Hypothesis KL : key_laws keq borrow qeq.

Lemma keq_refl : forall a, keq a a = true.
Proof. intros. rewrite (kl_borrow _ _ _ KL). apply (kl_refl _ _ _ KL). Qed.
Lemma qeq_sym : forall a b, qeq a b = qeq b a.
Proof.
  intros. destruct (qeq a b) eqn:E; destruct (qeq b a) eqn:F; auto.
  - apply (kl_sym _ _ _ KL) in E. congruence.
  - apply (kl_sym _ _ _ KL) in F. congruence.
Qed.
Lemma keq_sym : forall a b, keq a b = keq b a.
Proof. intros. rewrite !(kl_borrow _ _ _ KL). apply qeq_sym. Qed.
Lemma keq_qeq : forall a b q, keq a b = true -> qeq (borrow a) q = qeq (borrow b) q.
Proof.
  intros a b q H. rewrite (kl_borrow _ _ _ KL) in H.
  destruct (qeq (borrow b) q) eqn:E.
  - eapply (kl_trans _ _ _ KL); eassumption.
  - destruct (qeq (borrow a) q) eqn:F; [|reflexivity].
    apply (kl_sym _ _ _ KL) in H. pose proof (kl_trans _ _ _ KL _ _ _ H F). congruence.
Qed.

Lemma unique_perm : forall (m m' : fmap K V), Permutation m m' -> unique_keys keq m -> unique_keys keq m'.
Proof. intros m m' H. apply FOP_perm; [|assumption]. intros a b' E. now rewrite keq_sym. Qed.

(** In a list of distinct keys a query matches at most once. *)
Lemma unique_uniq : forall (m : fmap K V) q, unique_keys keq m ->
  uniq (fun kv => qeq (borrow (fst kv)) q) m.
Proof.
  intros m q. induction m as [|a m IH]; intros H; [unfold uniq; simpl; lia|].
  inversion H as [|? ? H1 H2]; subst. specialize (IH H2). unfold uniq in *. simpl.
  destruct (qeq (borrow (fst a)) q) eqn:E; [|assumption].
  assert (filter (fun kv => qeq (borrow (fst kv)) q) m = []) as ->; [|simpl; lia].
  apply nomatch_filter0. intros x Hx. rewrite Forall_forall in H1. specialize (H1 x Hx).
  destruct (qeq (borrow (fst x)) q) eqn:F; [|reflexivity].
  rewrite (kl_borrow _ _ _ KL) in H1. rewrite qeq_sym in F.
  pose proof (kl_trans _ _ _ KL _ _ _ E F). congruence.
Qed.

Lemma key_laws_id : key_laws keq (fun k => k) keq.
Proof.
  constructor.
  - apply keq_refl.
  - intros a b' H. now rewrite keq_sym.
  - intros a b' c H1 H2. rewrite (kl_borrow _ _ _ KL) in *. eapply (kl_trans _ _ _ KL); eassumption.
  - reflexivity.
Qed.
End KL.

Section KM.
Context {K V Q : Type}.
Variable keq : K -> K -> bool.
Variable borrow : K -> Q.
Variable qeq : Q -> Q -> bool.
Hypothesis KL : key_laws keq borrow qeq.

Lemma unique_uniq_key : forall (m : fmap K V) k, unique_keys keq m -> uniq (fun kv => keq (fst kv) k) m.
Proof. intros m k H. exact (unique_uniq keq _ keq (key_laws_id keq borrow qeq KL) m k H). Qed.

Lemma unique_insert : forall (m : fmap K V) k v, unique_keys keq m -> unique_keys keq (fm_insert keq k v m).
Proof.
  intros m k v H. unfold fm_insert. constructor; [|now apply FOP_filter].
  rewrite Forall_forall. intros x Hx. apply filter_In in Hx as [_ Hx]. simpl.
  rewrite (keq_sym keq borrow qeq KL). now destruct (keq (fst x) k).
Qed.
Lemma unique_modify : forall (m : fmap K V) q f, unique_keys keq m -> unique_keys keq (fm_modify borrow qeq q f m).
Proof.
  intros m q f H. unfold fm_modify, unique_keys. apply FOP_map. eapply ForallOrdPairs_ind with (l := m);
    [constructor| |exact H]. intros a l Hf _ IH. constructor; [|assumption].
  eapply Forall_impl; [|exact Hf]. cbv beta. intros x Hx.
  destruct (qeq (borrow (fst a)) q), (qeq (borrow (fst x)) q); assumption.
Qed.
End KM.

Section HH.
Variable ubits : N.
Variable dbg : bool.
Variable b : N.
Hypothesis Hb : (0 < b)%N.
Hypothesis Hdeg : (2 ^ b <= ubits)%N.
Hypothesis Hub : (ubits <= 64)%N.
Context {K V Q : Type}.
Variable keq : K -> K -> bool.
Variable borrow : K -> Q.
Variable qeq : Q -> Q -> bool.
Variable hash : K -> N.
Variable qhash : Q -> N.
Hypothesis KL : key_laws keq borrow qeq.
Hypothesis HL : hash_laws borrow qeq hash qhash.
Variable fuel : nat.
Hypothesis Hfuel : (2 * D b < fuel)%nat.

Notation entry := (hentry K V).
Notation node := (hnode K V).
Set Default Proof Using "dbg Hb Hdeg Hub KL HL Hfuel".

(** See [st] in HashProofs.v. *)
Context {strict : bool}.

Definition kv (e : entry) : K * V := (e_key e, e_val e).
Definition hash_ok (es : list entry) : Prop := forall e, In e es -> e_hash e = hash (e_key e).

Definition hm_repg (m : hmap K V) (fm : fmap K V) : Prop :=
  exists es, @hrepg ubits b K V strict (D b) 0 (hm_root m) es /\ hash_ok es /\
    Permutation (map kv es) fm /\ unique_keys keq fm /\
    hm_size m = length fm /\ hm_degree m = (2 ^ b)%N.

Lemma matches_q : forall es q e, hash_ok es -> In e es ->
  matches borrow qeq q (qhash q) e = qeq (borrow (fst (kv e))) q.
Proof.
  intros es q e Hh He. unfold matches. rewrite (Hh e He). simpl.
  destruct (qeq (borrow (e_key e)) q) eqn:E; [|apply andb_false_r].
  rewrite (hl_borrow _ _ _ _ HL), (hl_eq _ _ _ _ HL _ _ E), N.eqb_refl. reflexivity.
Qed.
Lemma matches_k : forall es k e, hash_ok es -> In e es ->
  matches_key keq k (hash k) e = keq (fst (kv e)) k.
Proof.
  intros es k e Hh He. unfold matches_key. rewrite (Hh e He). simpl.
  destruct (keq (e_key e) k) eqn:E; [|apply andb_false_r].
  rewrite (kl_borrow _ _ _ KL) in E.
  rewrite !(hl_borrow _ _ _ _ HL), (hl_eq _ _ _ _ HL _ _ E), N.eqb_refl. reflexivity.
Qed.

Lemma uniq_map : forall (p : K * V -> bool) es, uniq p (map kv es) <-> uniq (fun e => p (kv e)) es.
Proof. intros. unfold uniq. rewrite filter_map, map_length. reflexivity. Qed.

Lemma rep_uniq_q : forall es fm q, hash_ok es -> Permutation (map kv es) fm -> unique_keys keq fm ->
  uniq (matches borrow qeq q (qhash q)) es.
Proof.
  intros es fm q Hh Hp Hu. apply (uniq_ext_in _ _ _ es (fun e He => matches_q es q e Hh He)).
  apply (uniq_map (fun x => qeq (borrow (fst x)) q)). apply (unique_uniq keq borrow qeq KL).
  eapply unique_perm; [exact KL| |exact Hu]. now symmetry.
Qed.
Lemma rep_uniq_k : forall es fm k, hash_ok es -> Permutation (map kv es) fm -> unique_keys keq fm ->
  uniq (matches_key keq k (hash k)) es.
Proof.
  intros es fm k Hh Hp Hu. apply (uniq_ext_in _ _ _ es (fun e He => matches_k es k e Hh He)).
  apply (uniq_map (fun x => keq (fst x) k)). apply (unique_uniq_key keq borrow qeq KL).
  eapply unique_perm; [exact KL| |exact Hu]. now symmetry.
Qed.

Lemma rep_find : forall es fm q, hash_ok es -> Permutation (map kv es) fm -> unique_keys keq fm ->
  option_map kv (find (matches borrow qeq q (qhash q)) es) = fm_find borrow qeq q fm.
Proof.
  intros es fm q Hh Hp Hu. unfold fm_find.
  rewrite (find_ext_in _ _ _ es (fun e He => matches_q es q e Hh He)).
  rewrite <- (find_map _ _ kv (fun x => qeq (borrow (fst x)) q)). apply find_perm; [assumption|].
  apply (unique_uniq keq borrow qeq KL). eapply unique_perm; [exact KL| |exact Hu]. now symmetry.
Qed.
Lemma rep_find_k : forall es fm k, hash_ok es -> Permutation (map kv es) fm -> unique_keys keq fm ->
  option_map kv (find (matches_key keq k (hash k)) es) = find (fun x => keq (fst x) k) fm.
Proof.
  intros es fm k Hh Hp Hu.
  rewrite (find_ext_in _ _ _ es (fun e He => matches_k es k e Hh He)).
  rewrite <- (find_map _ _ kv (fun x => keq (fst x) k)). apply find_perm; [assumption|].
  apply (unique_uniq_key keq borrow qeq KL). eapply unique_perm; [exact KL| |exact Hu]. now symmetry.
Qed.

Lemma is_some_map : forall A B (f : A -> B) o, is_some (option_map f o) = is_some o.
Proof using. intros A B f []; reflexivity. Qed.

Lemma hm_find_ok : forall m fm q, hm_repg m fm ->
  exists o, hm_find ubits dbg borrow qeq qhash fuel m q = Ok o /\ option_map kv o = fm_find borrow qeq q fm.
Proof.
  intros m fm q (es & Hr & Hh & Hp & Hu & Hs & Hd). unfold hm_find. rewrite Hd.
  rewrite (hn_get_ok ubits dbg b Hb Hdeg Hub borrow qeq q _ (D b) 0 _ es fuel Hr eq_refl ltac:(lia)).
  eexists. split; [reflexivity|]. now apply rep_find.
Qed.

Lemma hm_insert_ok : forall m fm k v, hm_repg m fm ->
  exists m', hm_insert_mut ubits dbg keq hash fuel m k v = Ok m' /\ hm_repg m' (fm_insert keq k v fm).
Proof.
  intros m fm k v (es & Hr & Hh & Hp & Hu & Hs & Hd). unfold hm_insert_mut. rewrite Hd.
  destruct (hn_insert_ok ubits dbg b Hb Hdeg Hub keq (mkE k v (hash k)) (D b) 0 _ es fuel Hr eq_refl Hfuel
              (rep_uniq_k es fm k Hh Hp Hu)) as (n' & es' & E & Hr' & Hp' & _).
  cbn [e_key e_hash] in *. rewrite E. cbn [bind]. eexists. split; [reflexivity|].
  assert (Hp2 : Permutation (map kv es') (fm_insert keq k v fm)).
  { rewrite Hp'. cbn [map]. unfold fm_insert. change (kv (mkE k v (hash k))) with (k, v). constructor.
    rewrite (filter_ext_in _ (fun e => negb (keq (fst (kv e)) k))).
    - rewrite <- (filter_map _ _ kv (fun x => negb (keq (fst x) k))). now apply Permutation_filter.
    - intros e He. f_equal. now apply (matches_k es). }
  exists es'. cbn [hm_root hm_size hm_degree]. repeat split; auto.
  - intros e He. apply (Permutation_in _ Hp') in He as [<-|He]; [reflexivity|].
    apply filter_In in He as [He _]. auto.
  - apply (unique_insert keq borrow qeq KL). assumption.
  - rewrite Hs. unfold fm_insert. cbn [length].
    rewrite (filter_len_uniq (fun x => keq (fst x) k)) by (now apply (unique_uniq_key keq borrow qeq KL)).
    rewrite <- (rep_find_k es fm k Hh Hp Hu), is_some_map.
    destruct (find (matches_key keq k (hash k)) es) as [x|] eqn:Ef; cbn [is_some negb]; [|lia].
    apply find_some in Ef as [Ef _]. apply Permutation_length in Hp. rewrite map_length in Hp.
    destruct es; [destruct Ef|]. simpl in Hp. lia.
Qed.

Lemma root_empty : forall (n : node) es, @hrepg ubits b K V strict (D b) 0 n es -> es <> [] \/ n = new_empty_branch.
Proof.
  intros n es H. destruct es as [|e es]; [right|left; discriminate].
  pose proof (D_pos ubits dbg b Hb Hdeg Hub) as HD. destruct (D b) as [|r]; [lia|].
  destruct n as [s|[e|l]]; cbn [hrepg] in H.
  - destruct H as (al & Hw & Hc). apply (chl_length ubits dbg b Hb Hdeg Hub) in Hc.
    destruct al; [|simpl in Hc; lia]. destruct Hw as (E1 & E2 & _). destruct s as [bm ar]. cbn in E1, E2. now subst.
  - discriminate.
  - destruct H as (H & _). discriminate.
Qed.

Lemma hm_remove_ok : forall m fm q, hm_repg m fm ->
  exists m', hm_remove_mut ubits dbg borrow qeq qhash fuel m q
    = Ok (m', is_some (fm_find borrow qeq q fm)) /\ hm_repg m' (fm_remove borrow qeq q fm) /\
      (is_some (fm_find borrow qeq q fm) = false -> hm_repg m (fm_remove borrow qeq q fm)).
Proof.
  intros m fm q Hm. pose proof Hm as (es & Hr & Hh & Hp & Hu & Hs & Hd). unfold hm_remove_mut. rewrite Hd.
  pose proof (rep_uniq_q es fm q Hh Hp Hu) as Huq.
  destruct (hn_remove_ok ubits dbg b Hb Hdeg Hub borrow qeq q (qhash q) (D b) 0 _ es fuel Hr eq_refl ltac:(lia)
              (root_empty _ _ Hr) Huq) as (n' & E & Hcase & _).
  cbv zeta in Hcase. rewrite E. cbn [bind]. clear E.
  pose proof (rep_find es fm q Hh Hp Hu) as Hfind.
  assert (Ho : is_some (find (matches borrow qeq q (qhash q)) es) = is_some (fm_find borrow qeq q fm))
    by (rewrite <- Hfind; now rewrite is_some_map).
  set (es' := filter (fun x => negb (matches borrow qeq q (qhash q) x)) es) in *.
  assert (Hp' : Permutation (map kv es') (fm_remove borrow qeq q fm)).
  { unfold es', fm_remove. rewrite (filter_ext_in _ (fun e => negb (qeq (borrow (fst (kv e))) q))).
    - rewrite <- (filter_map _ _ kv (fun x => negb (qeq (borrow (fst x)) q))). now apply Permutation_filter.
    - intros e He. f_equal. now apply (matches_q es). }
  assert (Hr' : @hrepg ubits b K V strict (D b) 0 n' es').
  { destruct Hcase as [(-> & ->)|(_ & H)]; [|assumption].
    pose proof (D_pos ubits dbg b Hb Hdeg Hub) as HD. destruct (D b) as [|r]; [lia|].
    cbn [hrepg new_empty_branch]. exists []. split; [|constructor].
    apply (sa_wf_new ubits dbg). pose proof (N.pow_nonzero 2 b). lia. }
  assert (Hu' : unique_keys keq (fm_remove borrow qeq q fm)) by now apply FOP_filter.
  assert (Hh' : hash_ok es') by (intros e He; apply filter_In in He as [He _]; auto).
  assert (Hlen : length (fm_remove borrow qeq q fm) = (length fm - (if is_some (fm_find borrow qeq q fm) then 1 else 0))%nat).
  { apply (filter_len_uniq (fun x => qeq (borrow (fst x)) q)). now apply (unique_uniq keq borrow qeq KL). }
  rewrite Ho. destruct (is_some (fm_find borrow qeq q fm)) eqn:Eis.
  - assert (Hpos : (1 <= hm_size m)%nat).
    { rewrite Hs. unfold fm_find in Eis. destruct fm; [discriminate|]. simpl. lia. }
    rewrite csub_ok by assumption. cbn [bind]. eexists. split; [reflexivity|]. split; [|discriminate].
    exists es'. cbn [hm_root hm_size hm_degree]. repeat split; auto. lia.
  - eexists. split; [reflexivity|]. split.
    + exists es'. cbn [hm_root hm_size hm_degree]. repeat split; auto. lia.
    + intros _. assert (Hsame : fm_remove borrow qeq q fm = fm).
      { unfold fm_remove. apply (nomatch_filter (fun x => qeq (borrow (fst x)) q)). apply find_none.
        unfold fm_find in Eis. destruct (find _ fm); [discriminate|reflexivity]. }
      now rewrite Hsame.
Qed.

Lemma hm_get_mut_ok : forall m fm q f, hm_repg m fm ->
  exists m', hm_get_mut ubits dbg borrow qeq qhash fuel m q f
    = Ok (m', option_map snd (fm_find borrow qeq q fm)) /\ hm_repg m' (fm_modify borrow qeq q f fm).
Proof.
  intros m fm q f (es & Hr & Hh & Hp & Hu & Hs & Hd). unfold hm_get_mut. rewrite Hd.
  destruct (hn_get_mut_ok ubits dbg b Hb Hdeg Hub borrow qeq q (qhash q) f (D b) 0 _ es fuel Hr eq_refl ltac:(lia)
              (rep_uniq_q es fm q Hh Hp Hu)) as (n' & es' & E & Hr' & _ & Hp').
  rewrite E. cbn [bind]. eexists. split.
  { rewrite <- (rep_find es fm q Hh Hp Hu). destruct (find _ es); reflexivity. }
  exists es'. cbn [hm_root hm_size hm_degree].
  assert (Hp2 : Permutation (map kv es') (fm_modify borrow qeq q f fm)).
  { rewrite Hp'. unfold fm_modify. rewrite <- Hp, !map_map.
    rewrite (map_ext_in _ (fun e => if qeq (borrow (fst (kv e))) q then (fst (kv e), f (snd (kv e))) else kv e));
      [reflexivity|]. intros e He. rewrite (matches_q es) by assumption.
    destruct (qeq (borrow (fst (kv e))) q); reflexivity. }
  repeat split; auto.
  - intros e He. apply (Permutation_in _ Hp') in He. apply in_map_iff in He as (e0 & <- & He0).
    destruct (matches borrow qeq q (qhash q) e0); [cbn [e_write e_hash e_key]|]; auto.
  - now apply unique_modify.
  - unfold fm_modify. now rewrite map_length.
Qed.

Lemma hm_step_ok : forall (o : map_op K V Q) m fm, hm_repg m fm ->
  exists m', hm_step ubits dbg keq borrow qeq hash qhash fuel o m
    = Ok (m', snd (map_spec keq borrow qeq o fm)) /\ hm_repg m' (fst (map_spec keq borrow qeq o fm)).
Proof.
  intros o m fm H. pose proof H as (es & Hr & Hh & Hp & Hu & Hs & Hd).
  assert (Hg : forall q, hm_get ubits dbg borrow qeq qhash fuel m q = Ok (option_map snd (fm_find borrow qeq q fm))).
  { intros q. destruct (hm_find_ok m fm q H) as (r & E & Er). unfold hm_get. rewrite E, <- Er. now destruct r. }
  destruct o as [k v|k v|q|q|q f|q|q|q| | |]; cbn [hm_step map_spec fst snd].
  - destruct (hm_insert_ok m fm k v H) as (m' & E & H'). unfold hm_insert. rewrite E. cbn [bind]. eauto.
  - destruct (hm_insert_ok m fm k v H) as (m' & E & H'). rewrite E. cbn [bind]. eauto.
  - destruct (hm_remove_ok m fm q H) as (m' & E & H' & H''). unfold hm_remove. rewrite E. cbn [bind].
    eexists. split; [reflexivity|]. destruct (is_some (fm_find borrow qeq q fm)); auto.
  - destruct (hm_remove_ok m fm q H) as (m' & E & H' & H''). rewrite E. cbn [bind]. eauto.
  - destruct (hm_get_mut_ok m fm q f H) as (m' & E & H'). rewrite E. cbn [bind]. eauto.
  - rewrite Hg. cbn [bind]. eauto.
  - destruct (hm_find_ok m fm q H) as (r & E & Er). unfold hm_get_key_value. rewrite E. cbn [bind].
    rewrite <- Er. eexists. split; [reflexivity|assumption].
  - unfold hm_contains_key. rewrite Hg. cbn [bind]. rewrite is_some_map. eauto.
  - unfold hm_len. rewrite Hs. eauto.
  - unfold hm_is_empty. rewrite Hs. eexists. split; [|exact H]. destruct fm; reflexivity.
  - eauto.
Qed.

Lemma hm_new_ok : exists m0, @hm_new_with_degree ubits K V (2 ^ b) = Ok m0 /\ hm_repg m0 [].
Proof.
  unfold hm_new_with_degree, is_power_of_two, DEFAULT_DEGREE. rewrite count_ones_pow2. cbn [Nat.eqb negb].
  destruct (N.leb_spec (2 ^ b) ubits); [|lia]. cbn [negb]. eexists. split; [reflexivity|].
  exists []. cbn [hm_root hm_size hm_degree]. repeat split; try constructor.
  - pose proof (D_pos ubits dbg b Hb Hdeg Hub) as HD. destruct (D b) as [|r]; [lia|].
    cbn [hrepg new_empty_branch]. exists []. split; [|constructor].
    apply (sa_wf_new ubits dbg). pose proof (N.pow_nonzero 2 b). lia.
  - intros e [].
Qed.

Lemma hash_history : forall (ops : list (map_op K V Q)), exists m0 m,
  @hm_new_with_degree ubits K V (2 ^ b) = Ok m0 /\
  exec_m (hm_step ubits dbg keq borrow qeq hash qhash fuel) ops m0
    = Ok (m, snd (exec_s (map_spec keq borrow qeq) ops [])) /\
  hm_repg m (fst (exec_s (map_spec keq borrow qeq) ops [])).
Proof.
  intros ops. destruct hm_new_ok as (m0 & E & H).
  destruct (sim_exec _ _ _ _ hm_repg _ (map_spec keq borrow qeq) hm_step_ok ops m0 [] H) as (m & E' & H').
  exists m0, m. auto.
Qed.

Lemma hm_extend_ok : forall kvs m fm, hm_repg m fm ->
  exists m', hm_extend ubits dbg keq hash fuel m kvs = Ok m' /\
    hm_repg m' (fold_left (fun acc x => fm_insert keq (fst x) (snd x) acc) kvs fm).
Proof.
  induction kvs as [|[k v] kvs IH]; intros m fm H; cbn [hm_extend fold_left fst snd]; [eauto|].
  destruct (hm_insert_ok m fm k v H) as (m' & E & H'). rewrite E. cbn [bind]. apply IH. assumption.
Qed.

(** ** Iteration *)
Definition nents (n : node) (es : list entry) : Prop := exists r d, @hrepg ubits b K V strict r d n es.

Definition el_rep (el : @istack K V) (es : list entry) : Prop :=
  match el with
  | ISBranch l => exists ess, Forall2 nents l ess /\ es = concat ess
  | ISColl it => l_iter_rep it es
  | ISSingle o => es = match o with Some e => [e] | None => [] end
  end.

Inductive st_rep : list (@istack K V) -> list entry -> Prop :=
| st_nil : st_rep [] []
| st_cons : forall el es st rest, el_rep el es -> st_rep st rest -> st_rep (el :: st) (es ++ rest).

Lemma chl_nents : forall r d dig al es, @chl K V strict (@hrepg ubits b K V strict r d) dig al es ->
  exists ess, Forall2 nents (map snd al) ess /\ es = concat ess.
Proof.
  intros r d dig al es H. induction H as [|i c ec al rest Hr Hne Hd Hb2 Hrest (ess & H1 & H2)]; simpl.
  - exists []. split; [constructor|reflexivity].
  - exists (ec :: ess). split; [|simpl; congruence]. constructor; [|assumption]. exists r, d. assumption.
Qed.

Lemma is_new_rep : forall n es, nents n es -> el_rep (is_new n) es.
Proof.
  intros n es (r & d & H). destruct n as [s|[e|l]]; simpl.
  - destruct r; [destruct H|]. destruct H as (al & (_ & Ea & _) & Hc). unfold sa_iter. rewrite Ea.
    eapply chl_nents. eassumption.
  - destruct r; exact H.
  - apply l_iter_new_rep. destruct r; apply H.
Qed.

Lemma is_new_weight : forall n : node, (el_weight (is_new n) < n_weight n)%nat.
Proof. intros [s|[e|l]]; simpl; unfold sa_iter; lia. Qed.

Lemma hi_loop_ok : forall n st es, st_rep st es -> (st_weight st < n)%nat ->
  exists st', hi_loop n (st, length es) = Ok (hd_error (map kv es), (st', length (tl es))) /\ st_rep st' (tl es).
Proof.
  induction n as [|n IH]; intros st es H Hn; [lia|]. cbn [hi_loop].
  destruct H as [|el es0 st rest He Hst]; [simpl; eexists; split; [reflexivity|constructor]|].
  destruct el as [l|it|o]; cbn [is_next].
  - destruct He as (ess & HF & ->). destruct l as [|c l]; inversion HF as [|? ec ? ess' Hc HF']; subst.
    + cbn [bind concat app]. apply IH; [assumption|]. unfold st_weight in *. simpl in Hn |- *. lia.
    + cbn [bind concat].
      assert (Hgen : forall r, r = inr (is_new c) -> exists st',
        match r : hentry K V + istack with
        | inl e => let! size' := csub (length ((ec ++ concat ess') ++ rest)) 1 in Ok (Some (e_key e, e_val e), (ISBranch l :: st, size'))
        | inr new => hi_loop n (new :: ISBranch l :: st, length ((ec ++ concat ess') ++ rest))
        end = Ok (hd_error (map kv ((ec ++ concat ess') ++ rest)), (st', length (tl ((ec ++ concat ess') ++ rest)))) /\
        st_rep st' (tl ((ec ++ concat ess') ++ rest))).
      { intros r ->. rewrite <- app_assoc. apply IH.
        - constructor; [now apply is_new_rep|]. constructor; [|assumption]. exists ess'. auto.
        - pose proof (is_new_weight c). unfold st_weight in *. cbn [map fold_right el_weight] in *. lia. }
      destruct c as [s|[e|l']]; [exact (Hgen _ eq_refl)| |exact (Hgen _ eq_refl)]. clear Hgen.
      assert (ec = [e]) by (destruct Hc as (r & d & Hc); destruct r; exact Hc). subst ec.
      cbn [app length]. rewrite csub_S. cbn [bind map hd_error tl].
      eexists. split; [reflexivity|]. constructor; [|assumption]. exists ess'. auto.
  - destruct (l_iter_sim it es0 He) as (_ & it' & E & He'). rewrite E. cbn [bind].
    destruct es0 as [|e es0]; cbn [hd_error option_map].
    + cbn [app]. apply IH; [assumption|]. unfold st_weight in *. simpl in Hn |- *. lia.
    + cbn [app length]. rewrite csub_S. cbn [bind map hd_error tl].
      eexists. split; [reflexivity|]. now constructor.
  - destruct o as [e|]; cbn [el_rep] in He; subst es0.
    + cbn [bind app length]. rewrite csub_S. cbn [bind map hd_error tl].
      eexists. split; [reflexivity|]. change rest with ([] ++ rest). constructor; [reflexivity|assumption].
    + cbn [bind app]. apply IH; [assumption|]. unfold st_weight in *. simpl in Hn |- *. lia.
Qed.

Definition hi_rep (it : @hiter K V) (l : list (K * V)) : Prop :=
  exists es, st_rep (fst it) es /\ map kv es = l /\ snd it = length es.

Lemma hi_sim : iter_sim (@hi_next K V) hi_hint hi_rep.
Proof.
  intros [st size] l (es & H & <- & E). cbn [fst snd] in *. subst size. split.
  - unfold hi_hint. cbn [snd]. now rewrite map_length.
  - unfold hi_next. cbn [fst]. destruct (hi_loop_ok (S (st_weight st)) st es H ltac:(lia)) as (st' & E & H').
    rewrite E. eexists. split; [reflexivity|]. exists (tl es). cbn [fst snd]. repeat split; auto.
    now destruct es.
Qed.

Lemma hi_new_rep : forall m fm, hm_repg m fm ->
  exists l es, hi_rep (hi_new m) l /\ l = map kv es /\ @hrepg ubits b K V strict (D b) 0 (hm_root m) es /\ Permutation l fm.
Proof.
  intros m fm (es & Hr & Hh & Hp & Hu & Hs & Hd).
  assert (Hlen : length es = hm_size m).
  { rewrite Hs. apply Permutation_length in Hp. now rewrite map_length in Hp. }
  exists (map kv es), es. repeat split; auto. exists es. unfold hi_new. cbn [fst snd].
  repeat split; auto. destruct (Nat.ltb_spec 0 (hm_size m)) as [H|H].
  - rewrite <- (app_nil_r es). constructor; [|constructor]. apply is_new_rep. exists (D b), 0%nat. assumption.
  - destruct es; [constructor|simpl in Hlen; lia].
Qed.

Lemma hm_entries_ok : forall m fm, hm_repg m fm ->
  exists l, hm_entries m = Ok l /\ Permutation l fm /\
    (forall k, runs hi_next hi_hint k (hi_new m) = Ok (fwd_spec k l)).
Proof.
  intros m fm H. destruct (hi_new_rep m fm H) as (l & es & Hi & El & _ & Hp). exists l. split; [|split; [assumption|]].
  - unfold hm_entries. eapply sim_collect; [exact (iter_sim_sim0 _ _ _ _ _ hi_sim)|exact Hi|].
    destruct H as (_ & _ & _ & _ & _ & Hs & _). apply Permutation_length in Hp. lia.
  - intros k. eapply sim_runs; [exact hi_sim|exact Hi].
Qed.
End HH.

Notation hm_rep ubits b keq hash := (@hm_repg ubits b _ _ keq hash true).
