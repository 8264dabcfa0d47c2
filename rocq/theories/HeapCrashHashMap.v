(** * HashTrieMap on the heap when user code panics: the calls against their specification *)
From Coq Require Import List NArith Arith Lia Bool Permutation.
From Verif Require Import Base Spec SpecMap Sim ListModel ListProofs SparseModel SparseProofs HashModel HashProofs HashHist HashExtraProofs
  CrashModel CrashProofs
  PermSolve HeapModel HeapProofs HeapSafe HeapClient HeapList HeapListProofs HeapVec HeapVecProofs HeapHash HeapHashProofs HeapHashNodes
  HeapHashMap HeapCrashHash HeapCrashHashProofs HeapCrashHashNodes.
Import ListNotations.
Local Open Scope prog_scope.

(** What a version is to its client: a finite map, as it should be; or what is left after a
    comparison of colliding keys unwound, with the size the map still reports. *)
Inductive hval (K V : Type) := Sound (fm : fmap K V) | Spoiled (fm : fmap K V) (size : nat).
Arguments Sound {K V} fm.
Arguments Spoiled {K V} fm size.

Section Spec_.
Context {K V Q : Type}.
Variable keq : K -> K -> bool.
Variable borrow : K -> Q.
Variable qeq : Q -> Q -> bool.
Variable hash : K -> N.
Variable qhash : Q -> N.
Variable levels : nat.    (* of the trie *)
Notation spec := (@map_spec K V Q keq borrow qeq).

(** The hash of the key a call is about. *)
Definition call_hash (o : map_op K V Q) : option N :=
  match o with
  | MInsert k _ | MInsertMut k _ => Some (hash k)
  | MRemove q | MRemoveMut q | MGetMut q _ | MGet q | MGetKeyValue q | MContains q => Some (qhash q)
  | MSize | MIsEmpty | MClone => None
  end.
Definition in_place (o : map_op K V Q) : bool :=
  match o with MInsertMut _ _ | MRemoveMut _ | MGetMut _ _ => true | _ => false end.
Definition changes (o : map_op K V Q) : bool :=
  match o with MInsert _ _ | MRemove _ => true | _ => in_place o end.

(** What the call [o], the [n]-th user call of which unwinds if it comes to that, may do. *)
Definition ht_after (no : nat * map_op K V Q) (v v' : hval K V) (x : option (map_obs K V)) : Prop :=
  let '(n, o) := no in
  match v, x with
  (* it completes as specified *)
  | Sound fm, Some y => v' = Sound (fst (spec o fm)) /\ y = snd (spec o fm)
  (* it unwinds *)
  | Sound fm, None => exists h, call_hash o = Some h /\ n < levels + 2 * clash hash h fm + 3 /\
      (v' = Sound fm \/
       in_place o = true /\ 2 <= clash hash h fm /\
       exists fm' lost, v' = Spoiled fm' (length fm) /\ lost <> [] /\ Permutation (fm' ++ lost) fm /\
         forall e, In e lost -> hash (fst e) = h)
  (* a spoiled version still answers for what is left, and reports the size it had *)
  | Spoiled fm size, Some y => v' = v /\ changes o = false /\
      y = match o with MSize => MoNat size | MIsEmpty => MoBool (size =? 0) | _ => snd (spec o fm) end
  | Spoiled fm size, None => v' = v /\ (changes o = true \/ call_hash o <> None /\ n <= length fm)
  end.

Definition hval_size (v : hval K V) : nat := match v with Sound fm => length fm | Spoiled _ size => size end.

Lemma ht_after_size : forall o v v' x, ht_after o v v' x -> hval_size v' <= S (hval_size v).
Proof.
  assert (Fl : forall (f : K * V -> bool) (fm : fmap K V), length (filter f fm) <= length fm).
  { intros f fm. induction fm as [|e fm IH]; [apply le_n|]. cbn [filter]. destruct (f e); cbn [length]; lia. }
  intros [n o] [fm|fm size] v' [y|] H; cbn [ht_after] in H.
  - destruct H as (-> & _).
    destruct o; cbn [map_spec fst hval_size]; unfold fm_insert, fm_remove, fm_modify; cbn [length];
      rewrite ?map_length; try lia; try (specialize (Fl (fun kv => negb (keq (fst kv) k)) fm); lia);
      match goal with q : Q |- _ => specialize (Fl (fun kv => negb (qeq (borrow (fst kv)) q)) fm) end; lia.
  - destruct H as (h & _ & _ & [->|(_ & _ & fm' & lost & -> & _)]); cbn [hval_size]; lia.
  - destruct H as (-> & _). lia.
  - destruct H as (-> & _). lia.
Qed.

Lemma clash_le : forall h (fm : fmap K V), clash hash h fm <= length fm.
Proof. intros h fm. unfold clash. induction fm as [|e fm IH]; cbn [filter length]; [lia|]. destruct (_ =? _)%N; cbn [length]; lia. Qed.
End Spec_.

Section M.
Variable ubits : N.
Variable dbg : bool.
Variable b : N.
Hypothesis Hb : (0 < b)%N.
Hypothesis Hdeg : (2 ^ b <= ubits)%N.
Hypothesis Hub : (ubits <= 64)%N.
Context {K V Q : Type}.
Variable keq : K -> K -> bool.
Variable borrow : K -> Q.
Variable qeq : Q -> Q -> bool.
Variable hash : K -> N.
Variable qhash : Q -> N.
Hypothesis KL : key_laws keq borrow qeq.
Hypothesis HL : hash_laws borrow qeq hash qhash.
Variable fuel : nat.
Hypothesis Hfuel : (2 * D b < fuel)%nat.
Notation C := (tcell K V).
Notation own := (@own C).
Notation safe := (safe (@tkids K V)).
Notation entry := (hentry K V).
Notation node := (hnode K V).
Notation spec := (@map_spec K V Q keq borrow qeq).
Notation sound := (@hm_repg ubits b K V keq hash false).
Notation upost := (@upost ubits b K V).
Notation after := (@ht_after K V Q keq borrow qeq hash qhash (D b)).
Notation clash := (@clash K V hash).

Definition hparts (m : hht) (w : hmap K V) (G : list own) : Prop :=
  hh_size m = hm_size w /\ hh_degree m = (2 ^ b)%N /\ hm_degree w = (2 ^ b)%N /\
  exists t, ntree (hm_root w) t /\ pa t = hh_root m /\ G = [Tree t].

(** [n] is a trie with entries [es], some of which may have been lost, and [fm] are their contents. *)
Definition remains (n : node) (es : list entry) (fm : fmap K V) : Prop :=
  lax ubits b (D b) 0 n es /\ hash_ok hash es /\ Permutation (map (@kv K V) es) fm /\ unique_keys keq fm.

Definition xhrep (m : hht * bool) (v : hval K V) (G : list own) : Prop :=
  exists w, hparts (fst m) w G /\
    match v with
    | Sound fm => snd m = false /\ sound w fm
    | Spoiled fm size => snd m = true /\ hm_size w = size /\ exists es, remains (hm_root w) es fm
    end.
Notation srep m fm G := (exists w, hparts m w G /\ sound w fm).

Lemma sound_remains : forall w fm, sound w fm -> exists es, @hrepg ubits b K V false (D b) 0 (hm_root w) es /\ remains (hm_root w) es fm.
Proof using. intros w fm (es & Hr & Hh & Hp & Hu & _). exists es. split; [exact Hr|]. split; [|auto]. now apply wrep_lax. Qed.

Lemma xhrep_tall : forall m v G, xhrep m v G -> exists w, hparts (fst m) w G /\ tall (D b) (hm_root w).
Proof using.
  intros m v G (w & P & H). exists w. split; [exact P|]. destruct v as [fm|fm size].
  - destruct H as (_ & H). destruct (sound_remains _ _ H) as (es & _ & (Hl & _)). eapply lax_tall; exact Hl.
  - destruct H as (_ & _ & es & (Hl & _)). eapply lax_tall; exact Hl.
Qed.

Lemma srep_xh : forall m fm G, srep m fm G -> xhrep (m, false) (Sound fm) G.
Proof using. intros m fm G (w & P & H). exists w. cbn. auto. Qed.

Lemma hparts_inv : forall m w G, hparts m w G -> exists a c ts,
  m = mkHH a (hm_size w) (2 ^ b) /\ ncont (hm_root w) c ts /\ G = [Tree (PT a c ts)].
Proof using.
  intros [a0 sz dg] w G (Es & Ed & _ & t & T & Ep & ->). cbn in *. inversion T as [n a c ts Hc]; subst.
  exists a, c, ts. cbn [pa]. auto.
Qed.
Lemma hparts_intro : forall w c ts a, hm_degree w = (2 ^ b)%N -> ncont (hm_root w) c ts ->
  hparts (mkHH a (hm_size w) (2 ^ b)) w [Tree (PT a c ts)].
Proof using. intros w c ts a E H. unfold hparts. splits; trivial. exists (PT a c ts). splits; trivial. now constructor. Qed.

Lemma xh_new_ok : safe 1 (@xh_new ubits K V (2 ^ b)) [] (fun m G => xhrep m (Sound []) G).
Proof.
  destruct (hm_new_ok (strict:=false) (V := V) ubits dbg b Hb Hdeg Hub keq borrow qeq hash qhash KL HL fuel Hfuel) as (m0 & E & R).
  unfold xh_new, hh_new. assert (X : hm_root (m0 : hmap K V) = new_empty_branch).
  { unfold hm_new_with_degree in E. destruct (negb (is_power_of_two (2 ^ b))); [discriminate|].
    destruct (negb (2 ^ b <=? DEFAULT_DEGREE ubits)%N); [discriminate|]. injection E as <-. reflexivity. }
  rewrite E. cbn [lift pbind]. exists 0, [], []. splits; trivial. intros a. apply safe_ret.
  apply srep_xh. exists m0. split; [|exact R]. assert (Ed : hm_degree m0 = (2 ^ b)%N) by (destruct R as (? & R); apply R).
  rewrite Ed. apply (hparts_intro m0 (TB sa_new) []); trivial. rewrite X. apply sim_cont, sim_new.
Qed.

Lemma hparts_clone : forall m w G, hparts m w G ->
  safe 0 (hh_clone m) G (fun m' G' => exists G1 G2, G' = G1 ++ G2 /\ hparts m w G1 /\ hparts m' w G2).
Proof using.
  intros m w G R. assert (R' := R). destruct R' as (Es & Ed & Ew & [a c ts] & T & Ep & ->). unfold hh_clone.
  rewrite <- Ep. cbn [pa]. eexists _, _. split; [apply lent_in; now left|]. apply safe_ret.
  eexists [_], [_]. split; [reflexivity|]. split; exact R.
Qed.
Lemma xh_clone_ok : forall m v G, xhrep m v G ->
  safe 0 (xh_clone m) G (fun m' G' => exists G1 G2, G' = G1 ++ G2 /\ xhrep m v G1 /\ xhrep m' v G2).
Proof using.
  clear Hb Hdeg Hub Hfuel. intros m v G (w & P & H). unfold xh_clone.
  seq 0 0 G (@nil own) ltac:(apply (hparts_clone (fst m) w G P)).
  intros c G' (G1 & G2 & -> & R1 & R2). rewrite app_nil_r. apply safe_ret. exists G1, G2. split; [reflexivity|].
  split; exists w; auto.
Qed.

Lemma hparts_drop : forall m w G, hparts m w G -> tall (D b) (hm_root w) -> safe 0 (hh_drop m) G (fun _ G' => G' = []).
Proof using Hb Hdeg Hub.
  clear Hfuel. intros m w G (Es & Ed & Ew & t & T & Ep & ->) Ht. unfold hh_drop. rewrite <- Ep.
  apply (tdrop_ok _ (D b) (hm_root w)); [exact Ht| |exact T].
  unfold hh_levels. rewrite Ed, N.log2_pow2 by lia. unfold D. lia.
Qed.
Lemma xh_drop_ok : forall m v G, xhrep m v G -> safe 0 (hh_drop (fst m)) G (fun _ G' => G' = []).
Proof using Hb Hdeg Hub.
  clear Hfuel. intros m v G R. destruct (xhrep_tall _ _ _ R) as (w & P & T). eapply hparts_drop; eauto.
Qed.

(** [make_mut] of the root, a call on its contents, and what it leaves put back. *)
Lemma xroot_ok : forall X Y (n0 n' : node) a c ts (f : X) B n U n1 F (p : C -> prog C (crash (C * bool) (C * X)))
    (kd : nat -> X -> addr -> prog C Y) (ku : bool -> addr -> prog C Y) (Qp : Y -> list own -> Prop),
  ncont n0 c ts ->
  safe n1 (p c) (F ++ map Tree ts) (xleaves B n U f n') ->
  (forall k a' c' ts', k <= n <= k + B -> ncont n' c' ts' -> safe 0 (kd k f a') [Tree (PT a' c' ts')] Qp) ->
  (forall n'' a' c' ts' fl, n < B -> ncont n'' c' ts' -> U fl n'' -> safe 0 (ku fl a') [Tree (PT a' c' ts')] Qp) ->
  safe (n1 + 1) (let* (r, c) := tmake_mut a in
                 let* x := p c in
                 match x with
                 | Unwound (c', lost) => Fill r c' (ku lost r)
                 | Done n (c', x) => Fill r c' (kd n x r)
                 end) (F ++ [Tree (PT a c ts)]) Qp.
Proof using.
  clear Hfuel Hub Hdeg Hb. intros X Y n0 n' a c ts f B n U n1 F p kd ku Qp Hc Hp Hd Hu.
  seqq 1 n1 [Tree (PT a c ts)] F (fun (r : addr * C) G => exists a', r = (a', c) /\ G = Held a' :: map Tree ts);
    [apply (tmake_mut_ok n0); exact Hc|].
  intros [a1 c1] G (a' & E & ->). injection E as -> ->.
  seqq n1 0 (F ++ map Tree ts) [@Held C a'] (@xleaves K V X B n U f n'); [exact Hp|].
  intros [k [c' x]|[c' fl]] G H.
  - destruct H as (Hn & c2 & ts' & E & Hc' & ->). injection E as -> ->.
    exists ts', []. split; [perm|]. split; [exact (ncont_kids _ _ _ Hc')|]. now apply Hd.
  - destruct H as (Hn & n'' & ts' & Hc' & -> & HU).
    exists ts', []. split; [perm|]. split; [exact (ncont_kids _ _ _ Hc')|]. now apply (Hu n'').
Qed.

(** What an unwound call leaves of the map. *)
Definition uleft (h : N) (fm : fmap K V) (m : hht * bool) (G : list own) : Prop :=
  exists v', xhrep m v' G /\
    (v' = Sound fm \/
     2 <= clash h fm /\ exists fm' lost, v' = Spoiled fm' (length fm) /\ lost <> [] /\ Permutation (fm' ++ lost) fm /\
       forall e, In e lost -> hash (fst e) = h).

Lemma unique_sub : forall (fm fm' lost : fmap K V), unique_keys keq fm -> Permutation (fm' ++ lost) fm -> unique_keys keq fm'.
Proof using KL.
  intros fm fm' lost Hu Hp.
  assert (U : unique_keys keq (fm' ++ lost)).
  { eapply (unique_perm keq borrow qeq KL); [|exact Hu]. now symmetry. }
  clear - U. unfold unique_keys in *. induction fm' as [|x fm' IH]; [constructor|].
  cbn [app] in U. inversion U as [|? ? F U']; subst. constructor; [|now apply IH].
  rewrite Forall_app in F. apply F.
Qed.

Lemma uleft_ok : forall w fm h fl n'' a c ts, sound w fm -> (h < 2 ^ 64)%N -> upost h 0 (hm_root w) fl n'' -> ncont n'' c ts ->
  uleft h fm (mkHH a (hm_size w) (2 ^ b), fl) [Tree (PT a c ts)].
Proof.
  intros w fm h fl n'' a c ts (es & Hr & Hh & Hp & Hu & Hs & Hd) Lh U Hc.
  assert (Hlt : forall e, In e es -> (e_hash e < 2 ^ 64)%N).
  { intros e I. rewrite (Hh e I). apply (hash_lt borrow qeq hash qhash HL). }
  specialize (U (D b) es Hr eq_refl ltac:(intros e _; cbn [N.of_nat N.mul]; now rewrite !N.mod_1_r) Hlt Lh).
  set (w' := {| hm_root := n''; hm_size := hm_size w; hm_degree := hm_degree w |} : hmap K V).
  assert (P : hparts (mkHH a (hm_size w) (2 ^ b)) w' [Tree (PT a c ts)]) by (apply (hparts_intro w'); trivial).
  destruct fl.
  - destruct U as (L & es' & ls & Hl & Hne & Hpl & Hls).
    assert (Pm : Permutation (map (@kv K V) es' ++ map (@kv K V) ls) fm) by (rewrite <- map_app, Hpl; exact Hp).
    exists (Spoiled (map (@kv K V) es') (length fm)). split.
    + exists w'. split; [exact P|]. cbn [snd]. splits; trivial. exists es'. unfold remains. splits; trivial.
      * intros e I. apply Hh. apply (Permutation_in _ Hpl). apply in_app_iff. now left.
      * eapply unique_sub; eauto.
    + right. split.
      * unfold HeapHashMap.clash. rewrite <- (Permutation_length (Permutation_filter _ _ _ _ Hp)), filter_map, map_length.
        rewrite (filter_ext_in _ (same_hash h)); [exact L|].
        intros e I. unfold same_hash. cbn [kv fst]. now rewrite (Hh e I).
      * exists (map (@kv K V) es'), (map (@kv K V) ls). splits; trivial.
        -- destruct ls; [congruence|discriminate].
        -- intros e I. apply in_map_iff in I as (x & <- & I). cbn [kv fst]. rewrite <- (Hls x I). symmetry. apply Hh.
           apply (Permutation_in _ Hpl). apply in_app_iff. now right.
  - destruct U as (es' & Hr' & Hpl). exists (Sound fm). split; [|now left].
    exists w'. split; [exact P|]. cbn [snd]. split; [reflexivity|]. exists es'. splits; trivial.
    + intros e I. apply Hh. now apply (Permutation_in _ Hpl).
    + rewrite Hpl. exact Hp.
Qed.
Lemma uleft_same : forall h m fm G, srep m fm G -> uleft h fm (m, false) G.
Proof using. intros h m fm G R. exists (Sound fm). split; [now apply srep_xh|now left]. Qed.

Lemma xh_insert_mut_ok : forall n m fm G k v, srep m fm G ->
  safe (2 * D b + 2 * clash (hash k) fm + 6) (xh_insert_mut ubits dbg keq hash fuel n m k v) G
    (fun r G' => match r with
                 | Done c m' => c < n < c + D b + 2 * clash (hash k) fm + 4 /\ srep m' (fm_insert keq k v fm) G'
                 | Unwound m' => n < D b + 2 * clash (hash k) fm + 3 /\ uleft (hash k) fm m' G'
                 end).
Proof.
  intros n m fm G k v R. unfold xh_insert_mut.
  destruct n as [|n]; cbn [tucall]; [apply safe_ret; split; [lia|now apply uleft_same]|].
  destruct R as (w & Pt & Rw). assert (R' := Rw). destruct R' as (es & Hr & Hh & Hp & Hu & Hs & Hd).
  destruct (hparts_inv _ _ _ Pt) as (a & c & ts & -> & Hc & ->). clear Pt.
  destruct (hm_insert_ok ubits dbg b Hb Hdeg Hub keq borrow qeq hash qhash KL HL fuel Hfuel w fm k v Rw) as (w' & E & R').
  unfold hm_insert_mut in E. inv E x Ex. destruct x as [n' f]. injection E as <-.
  cbn [hh_root hh_size hh_degree].
  exists (2 * D b + 2 * (clash (hash k) fm + 1) + 2 + 1), [], [Tree (PT a c ts)].
  split; [lia|]. split; [apply Permutation_refl|]. split; [reflexivity|]. intros p. rewrite Hd in Ex.
  set (x := mkE k v (hash k)).
  eapply (xroot_ok _ _ (hm_root w) n' a c ts f _ n (upost (hash k) 0 (hm_root w)) _ [Tree (et (p, hash k) x)]
            (fun c => xn_insert ubits dbg keq fuel n k (p, hash k) c 0 (2 ^ b))
            (fun n new r => Ret (Done n (mkHH r (if (new : bool) then hm_size w + 1 else hm_size w) (2 ^ b))))
            (fun lost r => Ret (Unwound (mkHH r (hm_size w) (2 ^ b), lost)))); [exact Hc| | |].
  - apply (xn_insert_ok ubits dbg b Hb Hdeg Hub keq (D b) n 0 (hm_root w) c ts x (p, hash k)); trivial.
    + eapply lax_tall, wrep_lax. exact Hr.
    + eapply (rep_pcap ubits dbg b Hb Hdeg Hub borrow qeq hash qhash HL fuel Hfuel); eauto. exact (hash_lt borrow qeq hash qhash HL k).
    + lia.
  - intros k1 a' c' ts' Hk Hc'. apply safe_ret. split; [lia|]. eexists. split; [|exact R'].
    apply (hparts_intro (mkHM n' (if f then hm_size w + 1 else hm_size w) (hm_degree w))); trivial.
  - intros n'' a' c' ts' fl Hn Hc' HU. apply safe_ret. split; [lia|].
    eapply uleft_ok; eauto. exact (hash_lt borrow qeq hash qhash HL k).
Qed.

Lemma xh_remove_mut_ok : forall n m fm G q, srep m fm G ->
  safe (2 * D b + 2 * clash (qhash q) fm + 3) (xh_remove_mut ubits dbg borrow qeq qhash fuel n m q) G
    (fun r G' => match r with
                 | Done _ (m', x) => x = is_some (fm_find borrow qeq q fm) /\ srep m' (fm_remove borrow qeq q fm) G'
                 | Unwound m' => n < clash (qhash q) fm + 2 /\ uleft (qhash q) fm m' G'
                 end).
Proof.
  intros n m fm G q R. unfold xh_remove_mut.
  destruct n as [|n]; cbn [tucall]; [apply safe_ret; split; [lia|now apply uleft_same]|].
  destruct R as (w & Pt & Rw). assert (R' := Rw). destruct R' as (es & Hr & Hh & Hp & Hu & Hs & Hd).
  destruct (hparts_inv _ _ _ Pt) as (a & c & ts & -> & Hc & ->). clear Pt.
  destruct (hm_remove_ok ubits dbg b Hb Hdeg Hub keq borrow qeq hash qhash KL HL fuel Hfuel w fm q Rw) as (w' & E & R' & _).
  unfold hm_remove_mut in E. inv E x Ex. destruct x as [n' f].
  cbn [hh_root hh_size hh_degree]. rewrite Hd in Ex.
  replace (2 * D b + 2 * clash (qhash q) fm + 3) with (2 * D b + 2 * (clash (qhash q) fm + 1) + 1) by lia.
  eapply (xroot_ok _ _ (hm_root w) n' a c ts f (clash (qhash q) fm + 1) n (upost (qhash q) 0 (hm_root w)) _ []
            (fun c => xn_remove ubits dbg borrow qeq fuel n q (qhash q) c 0 (2 ^ b))
            (fun n removed r => if (removed : bool) then
                let* size := lift (csub (hm_size w) 1) in Ret (Done n (mkHH r size (2 ^ b), true))
              else Ret (Done n (mkHH r (hm_size w) (2 ^ b), false)))
            (fun lost r => Ret (Unwound (mkHH r (hm_size w) (2 ^ b), lost)))); [exact Hc| | |].
  - apply (xn_remove_ok ubits dbg b Hb Hdeg Hub borrow qeq q (qhash q) (D b) n 0 (hm_root w) es); trivial.
    + lia.
    + eapply (root_empty ubits dbg b Hb Hdeg Hub keq borrow qeq hash qhash KL HL fuel Hfuel). exact Hr.
    + eapply (rep_uniq_q ubits dbg b Hb Hdeg Hub keq borrow qeq hash qhash KL HL fuel Hfuel); eauto.
    + eapply (rep_pcap ubits dbg b Hb Hdeg Hub borrow qeq hash qhash HL fuel Hfuel); eauto. apply (hl_range _ _ _ _ HL).
  - intros k1 a' c' ts' _ Hc'. destruct f.
    + inv E sz Ez. rewrite Ez. cbn [lift pbind]. injection E as <- <-. apply safe_ret. split; [reflexivity|].
      eexists. split; [|exact R']. apply (hparts_intro (mkHM n' sz (hm_degree w))); trivial.
    + injection E as <- <-. apply safe_ret. split; [reflexivity|].
      eexists. split; [|exact R']. apply (hparts_intro (mkHM n' (hm_size w) (hm_degree w))); trivial.
  - intros n'' a' c' ts' fl Hn Hc' HU. apply safe_ret. split; [lia|].
    eapply uleft_ok; eauto. apply (hl_range _ _ _ _ HL).
Qed.

Lemma xh_get_mut_ok : forall n m fm G q g, srep m fm G ->
  safe (D b + 2 * clash (qhash q) fm + 8) (xh_get_mut ubits dbg borrow qeq qhash fuel n m q g) G
    (fun r G' => match r with
                 | Done _ (m', x) => x = option_map snd (fm_find borrow qeq q fm) /\ srep m' (fm_modify borrow qeq q g fm) G'
                 | Unwound m' => n < clash (qhash q) fm + 4 /\ uleft (qhash q) fm m' G'
                 end).
Proof.
  intros n m fm G q g R. unfold xh_get_mut.
  destruct n as [|n]; cbn [tucall]; [apply safe_ret; split; [lia|now apply uleft_same]|].
  destruct R as (w & Pt & Rw). assert (R' := Rw). destruct R' as (es & Hr & Hh & Hp & Hu & Hs & Hd).
  destruct (hparts_inv _ _ _ Pt) as (a & c & ts & -> & Hc & ->). clear Pt.
  destruct (hm_get_mut_ok ubits dbg b Hb Hdeg Hub keq borrow qeq hash qhash KL HL fuel Hfuel w fm q g Rw) as (w' & E & R').
  unfold hm_get_mut in E. inv E x Ex. destruct x as [n' f]. injection E as <- <-.
  cbn [hh_root hh_size hh_degree]. rewrite Hd in Ex.
  replace (D b + 2 * clash (qhash q) fm + 8) with (D b + 2 * (clash (qhash q) fm + 1) + 5 + 1) by lia.
  eapply (xroot_ok _ _ (hm_root w) n' a c ts f (clash (qhash q) fm + 1 + 2) n (upost (qhash q) 0 (hm_root w)) _ []
            (fun c => xn_get_mut ubits dbg borrow qeq fuel n q (qhash q) g c 0 (2 ^ b))
            (fun n x r => Ret (Done n (mkHH r (hm_size w) (2 ^ b), x)))
            (fun lost r => Ret (Unwound (mkHH r (hm_size w) (2 ^ b), lost)))); [exact Hc| | |].
  - apply (xn_get_mut_ok ubits dbg b Hb Hdeg Hub borrow qeq q (qhash q) g (D b) n 0 (hm_root w)); trivial.
    + eapply lax_tall, wrep_lax. exact Hr.
    + eapply (rep_pcap ubits dbg b Hb Hdeg Hub borrow qeq hash qhash HL fuel Hfuel); eauto. apply (hl_range _ _ _ _ HL).
  - intros k1 a' c' ts' _ Hc'. apply safe_ret. split; [reflexivity|].
    eexists. split; [|exact R']. apply (hparts_intro (mkHM n' (hm_size w) (hm_degree w))); trivial.
  - intros n'' a' c' ts' fl Hn Hc' HU. apply safe_ret. split; [lia|].
    eapply uleft_ok; eauto. apply (hl_range _ _ _ _ HL).
Qed.

Lemma xh_get_ok : forall n m w es fm G q cap, hparts m w G -> remains (hm_root w) es fm ->
  gcap ubits dbg b (qhash q) (D b) 0 (hm_root w) cap ->
  safe 0 (xh_get ubits dbg borrow qeq qhash fuel n m q) G
    (fun r G' => G' = G /\ match r with Done _ x => x = fm_find borrow qeq q fm | Unwound _ => n < cap + 1 end).
Proof.
  intros n m w es fm G q cap Pt (Hl & Hh & Hp & Hu) Hcap. unfold xh_get.
  destruct n as [|n]; cbn [tucall]; [apply safe_ret; split; [reflexivity|lia]|].
  destruct (hparts_inv _ _ _ Pt) as (a & c & ts & -> & Hc & ->). clear Pt. cbn [hh_root hh_degree].
  assert (La : lent (PT a c ts) [Tree (PT a c ts)]) by (apply lent_in; now left).
  eexists _, _. split; [exact La|]. intros _.
  assert (Eg := lax_get ubits dbg b Hb Hdeg Hub Q borrow qeq q (qhash q) (D b) 0 (hm_root w) es fuel Hl eq_refl ltac:(lia)).
  seqq 0 0 [Tree (PT a c ts)] (@nil own) (fun r G' => G' = [Tree (PT a c ts)] /\
    xfound cap n [Tree (PT a c ts)] (find (matches borrow qeq q (qhash q)) es) r).
  - apply (xn_get_ok ubits dbg b borrow qeq q (qhash q) fuel n (D b) (hm_root w) c ts); trivial.
    + intros t I. eapply lent_kid; [exact La|exact I].
    + eapply lax_tall. exact Hl.
  - pose proof (rep_find ubits dbg b Hb Hdeg Hub keq borrow qeq hash qhash KL HL fuel Hfuel es fm q Hh Hp Hu) as Ef.
    intros [k r|u] G' (-> & Fo); rewrite app_nil_r; cbn [xfound] in Fo; [|apply safe_ret; split; [reflexivity|lia]].
    destruct Fo as (_ & Fo). destruct (find _ es) as [x|]; cbn [found option_map] in *.
    + destruct Fo as (e & -> & Ee & Le). apply (entry_lent _ e x); [exact Le|]. apply safe_ret. split; [reflexivity|].
      rewrite <- Ef. reflexivity.
    + subst r. apply safe_ret. auto.
Qed.

Definition ht_xcost (no : nat * map_op K V Q) (size : nat) : nat :=
  if changes (snd no) then 2 * D b + 2 * size + 8 else 0.
Lemma ht_xcost_mono : forall o n m, n <= m -> ht_xcost o n <= ht_xcost o m.
Proof using. clear. intros o n m H. unfold ht_xcost. destruct (changes (snd o)); lia. Qed.

Lemma D_pos : 0 < D b.
Proof using dbg Hb Hdeg Hub. clear Hfuel. exact (HashProofs.D_pos ubits dbg b Hb Hdeg Hub). Qed.

Lemma read_call : forall f q n (m : hht * bool) v G o, xhrep m v G -> call_hash hash qhash o = Some (qhash q) -> changes o = false ->
  (forall fm, spec o fm = (fm, f (fm_find borrow qeq q fm))) -> match o with MSize | MIsEmpty => False | _ => True end ->
  safe 0 (tread_seen m (xh_get ubits dbg borrow qeq qhash fuel n (fst m) q) f) G
    (fun r G' => exists v', after (n, o) v v' (snd r) /\ xhrep (fst r) v' G').
Proof.
  intros f q n m v G o R Eh Ec Es Ne. assert (R' := R). destruct R' as (w & Pt & Hv). unfold tread_seen.
  destruct v as [fm|fm size].
  - destruct Hv as (Ef & Rw). destruct (sound_remains _ _ Rw) as (es & Hr & Rm).
    assert (Rm' := Rm). destruct Rm' as (Hl & Hh & Hp & Hu).
    eapply (safe_seq _ _ _ 0 0 _ _ G []); [apply (xh_get_ok n (fst m) w es fm G q (clash (qhash q) fm + 1) Pt Rm)|perm| |lia].
    + apply pcap_gcap. eapply (rep_pcap ubits dbg b Hb Hdeg Hub borrow qeq hash qhash HL fuel Hfuel); eauto. apply (hl_range _ _ _ _ HL).
    + intros [k x|u] G' (-> & Hx); rewrite app_nil_r; apply safe_ret; exists (Sound fm); (split; [|exact R]); cbn [snd ht_after].
      * subst x. rewrite Es. auto.
      * exists (qhash q). pose proof D_pos. splits; trivial; [lia|now left].
  - destruct Hv as (Ef & Esz & es & Rm). assert (Rm' := Rm). destruct Rm' as (Hl & Hh & Hp & Hu).
    eapply (safe_seq _ _ _ 0 0 _ _ G []); [apply (xh_get_ok n (fst m) w es fm G q (length es) Pt Rm)|perm| |lia].
    + apply (lax_gcap ubits dbg b Hb Hdeg Hub); trivial.
    + intros [k x|u] G' (-> & Hx); rewrite app_nil_r; apply safe_ret; exists (Spoiled fm size); (split; [|exact R]); cbn [snd ht_after].
      * subst x. splits; trivial. specialize (Es fm). destruct o; try contradiction; now rewrite Es.
      * split; [reflexivity|]. right. split; [congruence|]. rewrite <- (Permutation_length Hp), map_length. lia.
Qed.

Theorem xh_step_ok : forall o m v G, xhrep m v G ->
  safe (ht_xcost o (hval_size v)) (xh_step ubits dbg keq borrow qeq hash qhash fuel o m) G
    (fun r G' => exists v', after o v v' (snd r) /\ xhrep (fst r) v' G').
Proof.
  intros [n o] m v G R. unfold ht_xcost. cbn [snd]. pose proof D_pos as HD.
  destruct (changes o) eqn:Ec.
  2:{ destruct o as [k x|k x|q|q|q f|q|q|q| | |]; try discriminate Ec; cbn [xh_step].
      - now apply (read_call (fun x => MoVal (option_map snd x))).
      - now apply (read_call (fun x => MoKV x)).
      - now apply (read_call (fun x => MoBool (is_some x))).
      - apply safe_ret. exists v. cbn [fst snd]. split; [|exact R]. destruct R as (w & (Ez & _) & Hv). rewrite Ez.
        destruct v as [fm|fm size]; cbn [ht_after].
        + destruct Hv as (_ & es & _ & _ & _ & _ & Es & _). rewrite Es. auto.
        + destruct Hv as (_ & -> & _). auto.
      - apply safe_ret. exists v. cbn [fst snd]. split; [|exact R]. destruct R as (w & (Ez & _) & Hv). rewrite Ez.
        destruct v as [fm|fm size]; cbn [ht_after].
        + destruct Hv as (_ & es & _ & _ & _ & _ & Es & _). rewrite Es. split; [reflexivity|]. cbn [map_spec snd]. now destruct fm.
        + destruct Hv as (_ & -> & _). auto.
      - assert (R' := R). destruct R' as (w & Pt & Hv). destruct (xhrep_tall _ _ _ R) as (w' & Pt' & _).
        seq 0 0 G (@nil own) ltac:(apply (hparts_clone (fst m) w G Pt)).
        intros c G' (G1 & G2 & -> & R1 & R2). rewrite app_nil_r.
        assert (T : tall (D b) (hm_root w)).
        { destruct v as [fm|fm size].
          - destruct Hv as (_ & H). destruct (sound_remains _ _ H) as (es & _ & (Hl & _)). eapply lax_tall; exact Hl.
          - destruct Hv as (_ & _ & es & (Hl & _)). eapply lax_tall; exact Hl. }
        seq 0 0 G2 G1 ltac:(apply (hparts_drop c w G2 R2 T)).
        intros [] G3 ->. apply safe_ret. exists v. cbn [fst snd app]. split; [destruct v; cbn [ht_after]; auto|].
        exists w. auto. }
  assert (Sk : forall fm size, v = Spoiled fm size ->
    snd m = true /\ exists v', after (n, o) v v' (snd (m, @None (map_obs K V))) /\ xhrep m v' G).
  { intros fm size ->. split; [now destruct R as (w & _ & E & _)|]. eexists. split; [|exact R]. cbn [snd ht_after]. auto. }
  destruct v as [fm|fm size].
  2:{ destruct (Sk fm size eq_refl) as (E & v' & Ha & Rv).
      destruct o as [k x|k x|q|q|q f|q|q|q| | |]; try discriminate Ec; cbn [xh_step]; rewrite E; apply safe_ret; exists v'; auto. }
  clear Sk. destruct m as [m fl]. destruct R as (w & Pt & Ef & Rw). cbn [fst snd] in Pt, Ef. subst fl.
  assert (Rs : srep m fm G) by eauto. cbn [hval_size].
  set (Post := fun (r : hht * bool * option (map_obs K V)) G' => exists v', after (n, o) (Sound fm) v' (snd r) /\ xhrep (fst r) v' G').
  assert (Dn : forall m' y G', srep m' (fst (spec o fm)) G' -> y = snd (spec o fm) -> Post (m', false, Some y) G').
  { intros m' y G' H ->. exists (Sound (fst (spec o fm))). split; [cbn; auto|]. now apply srep_xh. }
  assert (Uw : forall h m' G', call_hash hash qhash o = Some h -> in_place o = true -> n < D b + 2 * clash h fm + 3 -> uleft h fm m' G' -> Post (m', None) G').
  { intros h m' G' Eh Ei Hn (v' & Rv & Hv). exists v'. split; [|exact Rv]. cbn [snd ht_after]. exists h. splits; trivial.
    destruct Hv as [->|Hv]; [now left|right]. auto. }
  assert (Us : forall h m' G', call_hash hash qhash o = Some h -> n < D b + 2 * clash h fm + 3 -> srep m' fm G' -> Post (m', false, None) G').
  { intros h m' G' Eh Hn H. exists (Sound fm). split; [|now apply srep_xh]. cbn [snd ht_after]. exists h. auto. }
  assert (Clone : forall G, srep m fm G -> safe 0 (hh_clone m) G (fun m' G' => exists G1 G2, G' = G1 ++ G2 /\ srep m fm G1 /\ srep m' fm G2)).
  { intros G0 (w0 & P0 & R0). eapply safe_mono; [apply le_n| |apply (hparts_clone m w0 G0 P0)].
    intros m' G' (G1 & G2 & -> & R1 & R2). exists G1, G2. eauto 8. }
  assert (Drop : forall m fm G, srep m fm G -> safe 0 (hh_drop m) G (fun _ G' => G' = [])).
  { intros m0 fm0 G0 R0. apply (xh_drop_ok (m0, false) (Sound fm0)). now apply srep_xh. }
  assert (Drop' : forall h fm m G, uleft h fm m G -> safe 0 (hh_drop (fst m)) G (fun _ G' => G' = [])).
  { intros h0 fm0 m0 G0 (v' & R0 & _). eapply xh_drop_ok; exact R0. }
  pose proof (fun h => clash_le hash h fm) as Cl.
  destruct o as [k x|k x|q|q|q f|q|q|q| | |]; try discriminate Ec; cbn [xh_step snd fst]; unfold tseen.
  - specialize (Cl (hash k)). unfold xh_insert. apply safe_assoc.
    seq 0 (2 * D b + 2 * clash (hash k) fm + 6) G (@nil own) ltac:(apply (Clone G Rs)).
    intros c G' (G1 & G2 & -> & R1 & R2). apply safe_assoc.
    seq (2 * D b + 2 * clash (hash k) fm + 6) 0 G2 G1 ltac:(apply (xh_insert_mut_ok n c fm G2 k x R2)).
    intros [d c'|[c' fl]] G' R'; apply safe_assoc.
    + seq 0 0 G1 G' ltac:(apply (Drop m fm G1 R1)). intros [] G3 ->. apply safe_ret. now apply Dn.
    + destruct R' as (Hn & R').
      seq 0 0 G' G1 ltac:(apply (Drop' _ _ (c', fl) G' R')). intros [] G3 ->. apply safe_ret. eapply Us; [reflexivity|lia|exact R1].
  - specialize (Cl (hash k)).
    seq (2 * D b + 2 * clash (hash k) fm + 6) 0 G (@nil own) ltac:(apply (xh_insert_mut_ok n m fm G k x Rs)).
    intros [d c'|c'] G' R'; rewrite app_nil_r; apply safe_ret; [now apply Dn|]. destruct R' as (Hn & R').
    eapply Uw; [reflexivity|reflexivity|lia|exact R'].
  - specialize (Cl (qhash q)). unfold xh_remove. apply safe_assoc.
    seq 0 (2 * D b + 2 * clash (qhash q) fm + 3) G (@nil own) ltac:(apply (Clone G Rs)).
    intros c G' (G1 & G2 & -> & R1 & R2). apply safe_assoc.
    seq (2 * D b + 2 * clash (qhash q) fm + 3) 0 G2 G1 ltac:(apply (xh_remove_mut_ok n c fm G2 q R2)).
    intros [d [c' y]|[c' fl]] G' R'.
    + destruct R' as (-> & R'). destruct (is_some (fm_find borrow qeq q fm)) eqn:E; apply safe_assoc.
      * seq 0 0 G1 G' ltac:(apply (Drop m fm G1 R1)). intros [] G3 ->. apply safe_ret. now apply Dn.
      * seq 0 0 G1 G' ltac:(apply (Clone G1 R1)).
        intros c2 G3 (G4 & G5 & -> & R4 & R5). apply safe_assoc.
        seq 0 0 G' (G4 ++ G5) ltac:(apply (Drop c' _ G' R')). intros [] G6 ->. apply safe_assoc.
        seq 0 0 G4 G5 ltac:(apply (Drop m fm G4 R4)). intros [] G7 ->. apply safe_ret.
        apply Dn; [|reflexivity]. cbn [fst app map_spec]. now rewrite (remove_absent borrow qeq q fm E).
    + destruct R' as (Hn & R'). apply safe_assoc.
      seq 0 0 G' G1 ltac:(apply (Drop' _ _ (c', fl) G' R')). intros [] G3 ->. apply safe_ret. eapply Us; [reflexivity|lia|exact R1].
  - specialize (Cl (qhash q)).
    seq (2 * D b + 2 * clash (qhash q) fm + 3) 0 G (@nil own) ltac:(apply (xh_remove_mut_ok n m fm G q Rs)).
    intros [d [c' y]|c'] G' R'; rewrite app_nil_r; apply safe_ret; destruct R' as (Hn & R').
    + subst y. now apply Dn.
    + eapply Uw; [reflexivity|reflexivity|lia|exact R'].
  - specialize (Cl (qhash q)).
    seq (D b + 2 * clash (qhash q) fm + 8) 0 G (@nil own) ltac:(apply (xh_get_mut_ok n m fm G q f Rs)).
    intros [d [c' y]|c'] G' R'; rewrite app_nil_r; apply safe_ret; destruct R' as (Hn & R').
    + subst y. now apply Dn.
    + eapply Uw; [reflexivity|reflexivity|lia|exact R'].
Qed.
End M.
