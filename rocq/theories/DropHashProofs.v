(** A panic in the [Drop] of an entry, and what it leaves of a hash trie. *)
From Coq Require Import List NArith Arith Bool Lia Permutation.
From Verif Require Import Base Spec SpecMap Sim ListModel ListProofs SparseModel SparseProofs HashModel HashProofs HashHist
  HashExtraProofs HashIter CrashModel CrashProofs DropModel DropProofs.
Import ListNotations.

Lemma find_filter_other : forall A (m m' : A -> bool) l, (forall e, m' e = true -> m e = false) ->
  find m' (filter (fun e => negb (m e)) l) = find m' l.
Proof.
  intros A m m' l H. induction l as [|a l IH]; [reflexivity|]. cbn [filter find].
  destruct (m' a) eqn:E.
  - rewrite (H a E). cbn [negb find]. now rewrite E.
  - destruct (m a); cbn [negb find]; [assumption|]. now rewrite E.
Qed.

Section HD.
Variable ubits : N.
Variable dbg : bool.
Variable b : N.
Hypothesis Hb : (0 < b)%N.
Hypothesis Hdeg : (2 ^ b <= ubits)%N.
Hypothesis Hub : (ubits <= 64)%N.
Context {K V Q : Type}.
Variable keq : K -> K -> bool.
Variable borrow : K -> Q.
Variable qeq : Q -> Q -> bool.
Notation entry := (hentry K V).
Notation bucket := (hbucket K V).
Notation node := (hnode K V).
Notation degree := (2 ^ b)%N.
Notation D := (D b).
Notation wrep := (@hrepg ubits b K V false).
Local Open Scope N_scope.
Set Default Proof Using "dbg Hb Hdeg Hub".

Lemma sa_get_assoc : forall (s : sarr node) al i, sa_wf ubits s al -> i < ubits -> sa_get ubits dbg s i = Ok (assoc al i).
Proof.
  intros s al i Hw Hi.
  destruct (sa_access ubits dbg (Hu0 ubits dbg b Hb Hdeg Hub) s al i Hw Hi)
    as [(l1 & l2 & -> & B & A & -> & _)|(l1 & c & l2 & -> & B & A & -> & _)].
  - now rewrite (assoc_hole ubits dbg (Hu0 ubits dbg b Hb Hdeg Hub)).
  - now rewrite (assoc_mid ubits dbg (Hu0 ubits dbg b Hb Hdeg Hub)), N.eqb_refl.
Qed.

(** The child of a branch that a hash leads to. *)
Lemma branch_at : forall r d s es h (m : entry -> bool), wrep (S r) d (HBranch s) es -> (d + S r = D)%nat ->
  (forall e, m e = true -> e_hash e = h) ->
  index_from_hash dbg h d degree = Ok (Some (idx b d h)) /\
  (sa_get_mut ubits dbg s (idx b d h) = Ok None /\ nomatch m es \/
   exists c w es1 ec es2, sa_get_mut ubits dbg s (idx b d h) = Ok (Some (c, w)) /\ es = es1 ++ ec ++ es2 /\
     (forall m' : entry -> bool, (forall e, m' e = true -> idx b d (e_hash e) = idx b d h) -> nomatch m' es1 /\ nomatch m' es2) /\
     wrep r (S d) c ec /\ (forall e, In e ec -> idx b d (e_hash e) = idx b d h) /\
     (forall c', n_entries (HBranch (w c')) = es1 ++ n_entries c' ++ es2) /\ (forall c', lists_ok c' -> lists_ok (HBranch (w c'))) /\
     forall c' h', sa_get ubits dbg (w c') (idx b d h') =
       if idx b d h' =? idx b d h then Ok (Some c') else sa_get ubits dbg s (idx b d h')).
Proof.
  intros r d s es h m H Hd Hm. cbn [hrepg] in H. destruct H as (al & Hw & Hch). split.
  { rewrite (index_ok ubits dbg b Hb Hdeg Hub) by lia. destruct (Nat.ltb_spec d D) as [_|]; [reflexivity|lia]. }
  assert (Hmi : forall e, m e = true -> idx b d (e_hash e) = idx b d h) by (intros e He; now rewrite (Hm e He)).
  pose proof (idx_lt ubits dbg b Hb Hdeg Hub d) as Hi.
  destruct (sa_access ubits dbg (Hu0 ubits dbg b Hb Hdeg Hub) s al (idx b d h) Hw (Hi h))
    as [(l1 & l2 & -> & B & A & _ & Eg & _)|(l1 & c & l2 & -> & B & A & _ & (w & Eg & Hset) & _)].
  - left. split; [assumption|]. exact (chl_hole ubits dbg b Hb Hdeg Hub _ _ m _ _ _ _ Hch B A Hmi).
  - right. destruct (chl_focus ubits dbg b Hb Hdeg Hub _ _ m _ _ _ _ _ Hch B A Hmi)
      as (es1 & ec & es2 & -> & N1 & N2 & C1 & C2 & Hrc & Hne & Hdg & _).
    exists c, w, es1, ec, es2. split; [assumption|]. split; [reflexivity|]. split.
    { intros m' Hm'. split.
      - apply (chl_hole ubits dbg b Hb Hdeg Hub _ _ m' _ l1 [] _ ltac:(rewrite app_nil_r; exact C1) B); [intros ? []|assumption].
      - refine (chl_hole ubits dbg b Hb Hdeg Hub _ _ m' _ [] l2 _ C2 _ A Hm'). intros ? []. }
    split; [assumption|]. split; [assumption|]. split; [|split].
    + intros c'. cbn [n_entries].
      assert (Ea : sa_array (w c') = map snd (l1 ++ (idx b d h, c') :: l2)) by apply (Hset c'). rewrite Ea.
      rewrite !map_app, concat_app. cbn [map concat snd].
      rewrite <- (chl_entries _ _ _ _ (fun n es => hrep_entries ubits b r (S d) n es) C1).
      now rewrite <- (chl_entries _ _ _ _ (fun n es => hrep_entries ubits b r (S d) n es) C2).
    + intros c' Hc'. apply (branch_lists _ _ _ _ _ (Hset c')). now apply (chl_lists_mid ubits b _ _ _ _ _ _ _ _ _ _ _ _ Hch).
    + intros c' h'. rewrite (sa_get_assoc _ _ _ (Hset c') (Hi h')), (sa_get_assoc _ _ _ Hw (Hi h')).
      rewrite !(assoc_mid ubits dbg (Hu0 ubits dbg b Hb Hdeg Hub)) by assumption. now destruct (idx b d h' =? idx b d h).
Qed.

(** ** Insertion *)
Lemma d_insert_empty : forall boom fuel e d,
  d_hn_insert ubits dbg keq boom fuel e (new_empty_branch : node) d degree
    = calmly (hn_insert ubits dbg keq fuel e (new_empty_branch : node) d degree).
Proof using.
  intros boom [|fuel] e d; [reflexivity|]. unfold new_empty_branch. cbn [d_hn_insert hn_insert].
  destruct (index_from_hash dbg (e_hash e) d degree) as [oi| |]; [cbn [bind]|reflexivity|reflexivity].
  destruct oi as [i|]; [cbn [unwrap bind]|reflexivity].
  assert (E : match sa_get_mut ubits dbg (sa_new : sarr node) i with Ok (Some _) => False | _ => True end).
  { unfold sa_get_mut. destruct (debug_assert _ _); [cbn [bind]|exact I|exact I].
    destruct (map_index _ _ _ _) as [[j|]| |]; try exact I. cbn [sa_new sa_array bind]. destruct j; exact I. }
  destruct (sa_get_mut ubits dbg (sa_new : sarr node) i) as [[x|]| |]; try reflexivity; [destruct E|].
  cbn [bind]. destruct (sa_set _ _ _ _ _); reflexivity.
Qed.

Lemma d_hn_insert_calm : forall fuel e (n : node) d,
  d_hn_insert ubits dbg keq false fuel e n d degree = calmly (hn_insert ubits dbg keq fuel e n d degree).
Proof using.
  assert (Hbk : forall e (bk : bucket), fbind (d_b_insert keq false e bk) (fun b' => HLeaf b') (fun '(b', new) => Ok (Calm (HLeaf b', new)))
                 = calmly (let! (b', new) := b_insert keq e bk in Ok (HLeaf b', new))).
  { intros e [o|l]; cbn [d_b_insert b_insert].
    - now destruct (matches_key keq (e_key e) (e_hash e) o).
    - destruct (list_remove_first l _) as [[l' o]| |]; reflexivity. }
  induction fuel as [|fuel IH]; intros e n d; [reflexivity|]. cbn [d_hn_insert hn_insert]. destruct n as [s|bk].
  - destruct (index_from_hash dbg (e_hash e) d degree) as [oi| |]; try reflexivity. cbn [bind].
    destruct oi as [i|]; [cbn [unwrap bind]|reflexivity].
    destruct (sa_get_mut ubits dbg s i) as [[[c w]|]| |]; try reflexivity; cbn [bind].
    + rewrite IH. destruct (hn_insert ubits dbg keq fuel e c (S d) degree) as [[c' x]| |]; reflexivity.
    + destruct (sa_set _ _ _ _ _); reflexivity.
  - destruct (index_from_hash dbg (e_hash e) d degree) as [oi| |]; try reflexivity. cbn [bind].
    destruct (b_contains_key keq (e_key e) (e_hash e) bk) as [ct| |]; try reflexivity. cbn [bind].
    rewrite !Hbk. destruct (negb (is_some oi)); [reflexivity|]. destruct ct; [reflexivity|]. destruct bk as [o|l]; [|reflexivity].
    rewrite d_insert_empty. destruct (hn_insert ubits dbg keq fuel o new_empty_branch d degree) as [[n1 x]| |]; try reflexivity.
    cbn [calmly fbind bind]. rewrite IH. destruct (hn_insert ubits dbg keq fuel e n1 d degree) as [[n2 y]| |]; reflexivity.
Qed.

(** A key that is not there: nothing is given up. *)
Lemma d_hn_insert_absent : forall boom e fuel r d (n : node) es, wrep r d n es -> (d + r = D)%nat ->
  nomatch (matches_key keq (e_key e) (e_hash e)) es ->
  d_hn_insert ubits dbg keq boom fuel e n d degree = calmly (hn_insert ubits dbg keq fuel e n d degree).
Proof.
  intros boom e. set (m := matches_key keq (e_key e) (e_hash e)).
  assert (Hm : forall e', m e' = true -> e_hash e' = e_hash e) by (intros e' He; now apply (matches_key_hash keq (e_key e) (e_hash e))).
  induction fuel as [|fuel IH]; intros r d n es H Hd Hn; [reflexivity|]. cbn [d_hn_insert hn_insert]. destruct n as [s|bk].
  - destruct r as [|r]; [destruct H|].
    destruct (branch_at r d s es (e_hash e) m H Hd Hm) as (Ei & [(Eg & _)|(c & w & es1 & ec & es2 & Eg & -> & _ & Hrc & _)]);
      rewrite Ei; cbn [bind unwrap]; rewrite Eg.
    + cbn [bind unwrap]. destruct (sa_set _ _ _ _ _); reflexivity.
    + cbn [bind unwrap]. rewrite (IH r (S d) c ec Hrc) by (try lia; intros y Hy; apply Hn; rewrite !in_app_iff; auto).
      destruct (hn_insert ubits dbg keq fuel e c (S d) degree) as [[c' x]| |]; reflexivity.
  - destruct (index_from_hash dbg (e_hash e) d degree) as [oi| |] eqn:Eoi; try reflexivity. cbn [bind].
    destruct bk as [o|l].
    + assert (es = [o]) by (destruct r; exact H). subst es. assert (Ho : m o = false) by (apply Hn; now left).
      unfold b_contains_key, b_find. fold m. rewrite Ho. cbn [bind is_some d_b_insert b_insert]. fold m. rewrite Ho.
      destruct (negb (is_some oi)) eqn:Emx; [reflexivity|].
      rewrite d_insert_empty. destruct (hn_insert ubits dbg keq fuel o new_empty_branch d degree) as [[n1 x]| |] eqn:E1; try reflexivity.
      cbn [calmly fbind bind]. destruct r as [|r].
      * exfalso. rewrite (index_ok ubits dbg b Hb Hdeg Hub) in Eoi by lia.
        destruct (Nat.ltb_spec d D) as [|_]; [lia|]. injection Eoi as <-. discriminate.
      * rewrite (IH (S r) d n1 [o]) by (try assumption; exact (insert_empty_rep ubits dbg b Hb Hdeg Hub keq r d o fuel n1 x Hd E1)).
        destruct (hn_insert ubits dbg keq fuel e n1 d degree) as [[n2 y]| |]; reflexivity.
    + destruct r; cbn [hrepg] in H; [|destruct H as (H & _); discriminate]. destruct H as (_ & Hl & Hlen).
      destruct (list_remove_first_ok m l es Hl) as (l' & E & _).
      { unfold uniq. apply nomatch_filter0 in Hn. rewrite Hn. simpl. lia. }
      rewrite (nomatch_find _ _ Hn) in E.
      destruct (b_contains_key keq (e_key e) (e_hash e) (BCollision l)) as [ct| |]; try reflexivity. cbn [bind d_b_insert b_insert].
      fold m. rewrite E. cbn [bind is_some]. rewrite andb_false_r. cbn [drops fbind bind negb calmly].
      now destruct (negb (is_some oi)), ct.
Qed.

(** A key that is there: if no other entry has its hash, the call has done its work. *)
Lemma d_hn_insert_thrown : forall e x fuel r d (n : node) es, wrep r d n es -> (d + r = D)%nat -> (r < fuel)%nat ->
  let m := matches_key keq (e_key e) (e_hash e) in
  uniq m es -> find m es = Some x -> @on_path b K V (e_hash e) d es ->
  (forall y, In y es -> e_hash y < 2 ^ 64) -> e_hash e < 2 ^ 64 ->
  exists n', d_hn_insert ubits dbg keq true fuel e n d degree = Ok (Thrown n') /\
    (alone (e_hash e) es -> hn_insert ubits dbg keq fuel e n d degree = Ok (n', false)) /\
    (~ alone (e_hash e) es -> n_entries n' = filter (fun y => negb (m y)) es /\ lists_ok n').
Proof.
  intros e x. set (m := matches_key keq (e_key e) (e_hash e)). cbv zeta. fold m.
  assert (Hm : forall e', m e' = true -> e_hash e' = e_hash e) by (intros e' He; now apply (matches_key_hash keq (e_key e) (e_hash e))).
  induction fuel as [|fuel IH]; intros r d n es H Hd Hf Hu Hx Hpath Hr Hh; [lia|]. cbn [d_hn_insert hn_insert]. destruct n as [s|bk].
  - destruct r as [|r]; [destruct H|].
    destruct (branch_at r d s es (e_hash e) m H Hd Hm) as (Ei & [(_ & Hn)|(c & w & es1 & ec & es2 & Eg & -> & Hno & Hrc & Hdg & Hen & Hli & _)]).
    { rewrite (nomatch_find _ _ Hn) in Hx. discriminate. }
    rewrite Ei. cbn [bind unwrap]. rewrite Eg. cbn [bind].
    destruct (Hno m) as (N1 & N2); [intros y Hy; now rewrite (Hm y Hy)|].
    destruct (Hno (same_hash (e_hash e))) as (N3 & N4); [intros y Hy; apply N.eqb_eq in Hy; now rewrite Hy|].
    rewrite find_focus in Hx by assumption.
    destruct (IH r (S d) c ec Hrc ltac:(lia) ltac:(lia) (uniq_focus _ _ _ _ Hu) Hx) as (c' & -> & Ha & Hna); [| |assumption|].
    { intros y Hy. rewrite !(digits_step ubits dbg b Hb Hdeg Hub). rewrite (Hdg y Hy). f_equal. apply Hpath. rewrite !in_app_iff; auto. }
    { intros y Hy. apply Hr. rewrite !in_app_iff; auto. }
    assert (Hal : alone (e_hash e) (es1 ++ ec ++ es2) <-> alone (e_hash e) ec).
    { unfold alone, uniq. rewrite !filter_app, !app_length. apply nomatch_filter0 in N3. apply nomatch_filter0 in N4. rewrite N3, N4.
      simpl. now rewrite Nat.add_0_r. }
    exists (HBranch (w c')). split; [reflexivity|]. rewrite Hal. split.
    + intros Hx'. now rewrite (Ha Hx').
    + intros Hx'. destruct (Hna Hx') as (En & Hl'). split; [|now apply Hli]. rewrite Hen, En. now rewrite filter_focus.
  - rewrite (index_ok ubits dbg b Hb Hdeg Hub) by lia. cbn [bind].
    destruct bk as [o|l].
    + assert (es = [o]) by (destruct r; exact H). subst es. cbn [find] in Hx.
      destruct (m o) eqn:Ho; [|discriminate].
      unfold b_contains_key, b_find. fold m. rewrite Ho. cbn [bind is_some d_b_insert b_insert]. fold m. rewrite Ho.
      exists (HLeaf (BSingle e)). split; [now destruct (negb _)|]. split; [intros _; now destruct (negb _)|].
      intros Ha. destruct Ha. unfold alone, uniq. cbn [filter]. destruct (same_hash (e_hash e) o); simpl; lia.
    + destruct r; cbn [hrepg] in H; [|destruct H as (H & _); discriminate]. destruct H as (_ & Hl & Hlen).
      assert (d = D) by lia. subst d.
      destruct (list_remove_first_ok m l es Hl Hu) as (l' & E & Hl').
      unfold b_contains_key, b_find. fold m. rewrite (l_elems_ok l es Hl). cbn [bind d_b_insert b_insert]. fold m. rewrite E, Hx.
      cbn [bind is_some andb drops fbind]. exists (HLeaf (BCollision l')). split; [now destruct (negb _)|]. split.
      * intros Ha. exfalso. unfold alone, uniq in Ha.
        pose proof (path_end ubits dbg b Hb Hdeg Hub (e_hash e) es Hpath Hr Hh) as Hall.
        assert (Ef : filter (same_hash (e_hash e)) es = es).
        { clear - Hall. induction es as [|a es IH]; [reflexivity|]. cbn [filter]. unfold same_hash at 1.
          rewrite (Hall a (or_introl eq_refl)), N.eqb_refl, IH; [reflexivity|]. intros y Hy. apply Hall. now right. }
        rewrite Ef in Ha. lia.
      * intros _. cbn [n_entries]. split; [exact (proj1 Hl')|]. eexists. exact (l_rep_lax _ _ _ Hl').
Qed.

(** ** Removal *)
Lemma d_hn_remove_calm : forall q h fuel (n : node) d,
  d_hn_remove ubits dbg borrow qeq false fuel q h n d degree = calmly (hn_remove ubits dbg borrow qeq fuel q h n d degree).
Proof using.
  intros q h. induction fuel as [|fuel IH]; intros n d; [reflexivity|]. cbn [d_hn_remove hn_remove]. destruct n as [s|bk].
  - destruct (index_from_hash dbg h d degree) as [oi| |]; try reflexivity. cbn [bind].
    destruct oi as [i|]; [cbn [unwrap bind]|reflexivity].
    destruct (sa_get_mut ubits dbg s i) as [[[c w]|]| |]; try reflexivity; cbn [bind].
    rewrite IH. destruct (hn_remove ubits dbg borrow qeq fuel q h c (S d) degree) as [[c' x]| |]; try reflexivity.
    cbn [calmly fbind bind]. destruct (hn_is_empty dbg c') as [em| |]; try reflexivity. cbn [bind].
    destruct em, x; try reflexivity.
    + destruct (sa_remove ubits dbg (w c') i) as [s2| |]; try reflexivity. cbn [bind]. destruct (hn_compress (HBranch s2)); reflexivity.
    + destruct (hn_compress (HBranch (w c'))); reflexivity.
  - destruct bk as [o|l]; cbn [d_b_remove b_remove].
    + now destruct (matches borrow qeq q h o).
    + destruct (list_remove_first l (matches borrow qeq q h)) as [[l' o]| |]; try reflexivity. cbn [bind].
      cbn [andb drops fbind bind]. destruct (l_len l') as [|[|k]]; try reflexivity. destruct (unwrap (l_first l')); reflexivity.
Qed.

Lemma d_hn_remove_absent : forall boom q h fuel r d (n : node) es, wrep r d n es -> (d + r = D)%nat ->
  nomatch (matches borrow qeq q h) es ->
  d_hn_remove ubits dbg borrow qeq boom fuel q h n d degree = calmly (hn_remove ubits dbg borrow qeq fuel q h n d degree).
Proof.
  intros boom q h. set (m := matches borrow qeq q h).
  assert (Hm : forall e', m e' = true -> e_hash e' = h) by (intros e' He; now apply (matches_hash borrow qeq q h)).
  induction fuel as [|fuel IH]; intros r d n es H Hd Hn; [reflexivity|]. cbn [d_hn_remove hn_remove]. destruct n as [s|bk].
  - destruct r as [|r]; [destruct H|].
    destruct (branch_at r d s es h m H Hd Hm) as (Ei & [(Eg & _)|(c & w & es1 & ec & es2 & Eg & -> & _ & Hrc & _)]);
      rewrite Ei; cbn [bind unwrap]; rewrite Eg; cbn [bind]; [reflexivity|]. rewrite (IH r (S d) c ec Hrc) by (try lia; intros y Hy; apply Hn; rewrite !in_app_iff; auto).
    destruct (hn_remove ubits dbg borrow qeq fuel q h c (S d) degree) as [[c' x]| |]; try reflexivity.
    cbn [calmly fbind bind]. destruct (hn_is_empty dbg c') as [em| |]; try reflexivity. cbn [bind].
    destruct em, x; try reflexivity.
    + destruct (sa_remove ubits dbg (w c') _) as [s2| |]; try reflexivity. cbn [bind]. destruct (hn_compress (HBranch s2)); reflexivity.
    + destruct (hn_compress (HBranch (w c'))); reflexivity.
  - destruct bk as [o|l]; cbn [d_b_remove b_remove].
    + assert (es = [o]) by (destruct r; exact H). subst es. fold m. now rewrite (Hn o (or_introl eq_refl)).
    + destruct r; cbn [hrepg] in H; [|destruct H as (H & _); discriminate]. destruct H as (_ & Hl & Hlen).
      destruct (list_remove_first_ok m l es Hl) as (l' & E & _).
      { unfold uniq. apply nomatch_filter0 in Hn. rewrite Hn. simpl. lia. }
      rewrite (nomatch_find _ _ Hn) in E. fold m. rewrite E. cbn [bind is_some]. rewrite andb_false_r. cbn [drops fbind bind calmly].
      destruct (l_len l') as [|[|k]]; try reflexivity. destruct (unwrap (l_first l')); reflexivity.
Qed.

Lemma get_empty : forall q h fuel d, (d <= D)%nat ->
  hn_get ubits dbg borrow qeq (S fuel) q h (new_empty_branch : node) d degree = if (d <? D)%nat then Ok None else Panic.
Proof.
  intros q h fuel d Hd. unfold new_empty_branch. cbn [hn_get]. rewrite (index_ok ubits dbg b Hb Hdeg Hub) by lia.
  destruct (d <? D)%nat; [|reflexivity]. cbn [bind unwrap].
  now rewrite (sa_get_assoc sa_new [] _ (sa_wf_new ubits dbg (Hu0 ubits dbg b Hb Hdeg Hub)) (idx_lt ubits dbg b Hb Hdeg Hub d h)).
Qed.

(** A key that is there: its entry is gone, and lookups of other hashes are right. *)
Lemma d_hn_remove_thrown : forall q h x fuel r d (n : node) es, wrep r d n es -> (d + r = D)%nat -> (r < fuel)%nat ->
  let m := matches borrow qeq q h in let es' := filter (fun y => negb (m y)) es in
  uniq m es -> find m es = Some x -> h < 2 ^ 64 ->
  exists n', d_hn_remove ubits dbg borrow qeq true fuel q h n d degree = Ok (Thrown n') /\ n_entries n' = es' /\ lists_ok n' /\
    forall q' h' fuel', h' < 2 ^ 64 -> (r < fuel')%nat -> h' mod 2 ^ (N.of_nat d * b) = h mod 2 ^ (N.of_nat d * b) ->
      hn_get ubits dbg borrow qeq fuel' q' h' n' d degree = Ok (find (matches borrow qeq q' h') es') \/
      h' = h /\ nomatch (same_hash h) es' /\ hn_get ubits dbg borrow qeq fuel' q' h' n' d degree = Panic.
Proof.
  intros q h x. set (m := matches borrow qeq q h). cbv zeta. fold m.
  assert (Hm : forall e', m e' = true -> e_hash e' = h) by (intros e' He; now apply (matches_hash borrow qeq q h)).
  induction fuel as [|fuel IH]; intros r d n es H Hd Hf Hu Hx Hh; [lia|]. cbn [d_hn_remove]. destruct n as [s|bk].
  - destruct r as [|r]; [destruct H|].
    destruct (branch_at r d s es h m H Hd Hm) as (Ei & [(_ & Hn)|(c & w & es1 & ec & es2 & Eg & -> & Hno & Hrc & Hdg & Hen & Hli & Hget)]).
    { rewrite (nomatch_find _ _ Hn) in Hx. discriminate. }
    rewrite Ei. cbn [bind unwrap]. rewrite Eg. cbn [bind].
    destruct (Hno m) as (N1 & N2); [intros y Hy; now rewrite (Hm y Hy)|].
    rewrite find_focus in Hx by assumption.
    destruct (IH r (S d) c ec Hrc ltac:(lia) ltac:(lia) (uniq_focus _ _ _ _ Hu) Hx Hh) as (c' & -> & Ec & Hlc & Hlook).
    exists (HBranch (w c')). split; [reflexivity|]. split; [rewrite Hen, Ec; now rewrite filter_focus|]. split; [now apply Hli|].
    intros q' h' fuel' Hh' Hf' Hp. destruct fuel' as [|fuel']; [lia|].
    pose proof (hn_get_ok ubits dbg b Hb Hdeg Hub borrow qeq q' h' (S r) d (HBranch s) (es1 ++ ec ++ es2) (S fuel') H Hd Hf') as Hold.
    cbn [hn_get] in *. rewrite (index_ok ubits dbg b Hb Hdeg Hub) in * by lia.
    destruct (Nat.ltb_spec d D) as [_|]; [|lia]. cbn [bind unwrap] in *. rewrite Hget.
    assert (Hm' : forall y : entry, matches borrow qeq q' h' y = true -> e_hash y = h') by (intros y Hy; now apply (matches_hash borrow qeq q' h')).
    destruct (N.eqb_spec (idx b d h') (idx b d h)) as [Eh|Nh].
    + cbn [bind]. rewrite filter_focus by assumption.
      destruct (Hno (matches borrow qeq q' h')) as (N3 & N4); [intros y Hy; now rewrite (Hm' y Hy)|].
      destruct (Hno (same_hash h)) as (N5 & N6); [intros y Hy; apply N.eqb_eq in Hy; now rewrite Hy|].
      rewrite find_focus by assumption.
      destruct (Hlook q' h' fuel' Hh' ltac:(lia)) as [->|(-> & Hn & ->)]; [|now left|right].
      * rewrite !(digits_step ubits dbg b Hb Hdeg Hub). now rewrite Eh, Hp.
      * split; [reflexivity|]. split; [|reflexivity]. intros y Hy. rewrite !in_app_iff in Hy.
        destruct Hy as [Hy|[Hy|Hy]]; auto.
    + left. rewrite Hold. rewrite find_filter_other; [reflexivity|]. intros y Hy. destruct (m y) eqn:Ey; [|reflexivity].
      exfalso. apply Nh. now rewrite <- (Hm' y Hy), <- (Hm y Ey).
  - destruct bk as [o|l]; cbn [d_b_remove].
    + assert (es = [o]) by (destruct r; exact H). subst es. cbn [find filter] in *. fold m.
      destruct (m o) eqn:Ho; [|discriminate]. cbn [fbind bind drops negb].
      exists new_empty_branch. split; [reflexivity|]. split; [reflexivity|]. split; [exact I|].
      intros q' h' fuel' Hh' Hf' Hp. destruct fuel' as [|fuel']; [lia|]. rewrite get_empty by lia.
      destruct (Nat.ltb_spec d D) as [|Hle]; [now left|]. right. assert (d = D) by lia. subst d.
      split; [|split; [intros ? []|reflexivity]].
      assert (H64 : 64 <= N.of_nat D * b).
      { destruct (N.le_gt_cases 64 (N.of_nat D * b)) as [Hy|Hy]; [assumption|exfalso].
        apply (D_spec ubits dbg b Hb Hdeg Hub) in Hy. lia. }
      assert (Hle' : 2 ^ 64 <= 2 ^ (N.of_nat D * b)) by (apply N.pow_le_mono_r; lia).
      rewrite !N.mod_small in Hp by (eapply N.lt_le_trans; eauto). assumption.
    + destruct r; cbn [hrepg] in H; [|destruct H as (H & _); discriminate]. destruct H as (_ & Hl & Hlen).
      destruct (list_remove_first_ok m l es Hl Hu) as (l' & E & Hl'). fold m. rewrite E, Hx.
      cbn [bind is_some andb drops fbind]. exists (HLeaf (BCollision l')). split; [reflexivity|]. split; [exact (proj1 Hl')|]. split; [eexists; exact (l_rep_lax _ _ _ Hl')|].
      intros q' h' fuel' _ Hf' _. destruct fuel' as [|fuel']; [lia|]. left. cbn [hn_get]. unfold b_get, b_find.
      rewrite (l_elems_ok l' _ Hl'). reflexivity.
Qed.
End HD.
