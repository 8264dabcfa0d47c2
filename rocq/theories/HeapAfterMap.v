(** * A damaged HashTrieMap on the heap: the API calls *)
From Coq Require Import List NArith Arith Lia Bool Permutation.
From Verif Require Import Base Spec SpecMap SpecOrd Sim ListModel ListProofs SparseModel SparseProofs HashModel HashProofs HashHist
  HashExtraProofs HashIter CrashModel CrashProofs CrashAfterModel CrashAfter CrashAfterCalls
  PermSolve HeapModel HeapProofs HeapSafe HeapClient HeapList HeapListProofs HeapVec HeapVecProofs HeapHash HeapHashProofs HeapHashNodes
  HeapHashMap HeapCrashHash HeapCrashHashProofs HeapAfterList HeapAfterNodes HeapAfterModel.
Import ListNotations.
Local Open Scope prog_scope.

Lemma cends_ok : forall S A (run : nat -> res (crash S A)) Pd Pu Po, cends run Pd Pu Po -> forall n, exists o, run n = Ok o.
Proof.
  intros S A run Pd Pu Po (c & r & _ & H) n. destruct (H n) as (H1 & H2). destruct (Nat.lt_ge_cases n c) as [L|L].
  - destruct (H2 L) as (s & -> & _). eauto.
  - rewrite (H1 L). eauto.
Qed.

(** What every way a call ends satisfies. *)
Lemma cends_any : forall S A (run : nat -> res (crash S A)) Pd Pu Po, cends run Pd Pu Po -> forall n o, run n = Ok o ->
  match o with Done _ a => Pd a | Unwound s => Pu s \/ Po s end.
Proof.
  intros S A run Pd Pu Po (c & r & Hr & H) n o E. destruct (H n) as (H1 & H2). destruct (Nat.lt_ge_cases n c) as [L|L].
  - destruct (H2 L) as (s & E' & P). rewrite E in E'. injection E' as ->. now left.
  - rewrite (H1 L) in E. injection E as <-. destruct r; [exact Hr|now right].
Qed.

Section M.
Variable ubits : N.
Variable dbg : bool.
Variable b : N.
Hypothesis Hb : (0 < b)%N.
Hypothesis Hdeg : (2 ^ b <= ubits)%N.
Hypothesis Hub : (ubits <= 64)%N.
Context {K V Q : Type}.
Variable keq : K -> K -> bool.
Variable borrow : K -> Q.
Variable qeq : Q -> Q -> bool.
Variable hash : K -> N.
Variable qhash : Q -> N.
Hypothesis KL : key_laws keq borrow qeq.
Hypothesis HL : hash_laws borrow qeq hash qhash.
Variable fuel : nat.
Hypothesis Hfuel : (2 * D b < fuel)%nat.
Notation C := (tcell K V).
Notation own := (@own C).
Notation safe := (safe (@tkids K V)).
Notation entry := (hentry K V).
Notation node := (hnode K V).
Notation dm := (@dm_rep ubits b K V keq hash).

Definition dparts (m : hht) (w : hmap K V) (G : list own) : Prop :=
  hh_size m = hm_size w /\ hh_degree m = (2 ^ b)%N /\ hm_degree w = (2 ^ b)%N /\
  exists t, dtree (hm_root w) t /\ pa t = hh_root m /\ G = [Tree t].

Lemma dparts_inv : forall m w G, dparts m w G -> exists a c ts,
  m = mkHH a (hm_size w) (2 ^ b) /\ dcont (hm_root w) c ts /\ G = [Tree (PT a c ts)].
Proof using.
  intros [a0 sz dg] w G (Es & Ed & _ & t & T & Ep & ->). cbn in *. inversion T as [n a c ts Hc]; subst.
  exists a, c, ts. cbn [pa]. auto.
Qed.
Lemma dparts_intro : forall w c ts a, hm_degree w = (2 ^ b)%N -> dcont (hm_root w) c ts ->
  dparts (mkHH a (hm_size w) (2 ^ b)) w [Tree (PT a c ts)].
Proof using. intros w c ts a E H. unfold dparts. splits; trivial. exists (PT a c ts). splits; trivial. now constructor. Qed.

Lemma drep_shape : forall hit r d p (n : node) es cap, @drep ubits b K V hit r d p n es -> length es <= cap -> 1 <= cap ->
  fit r cap n /\ wfn ubits r n /\ tall r n.
Proof using.
  clear Hb Hdeg Hub Hfuel. intros hit. induction r as [|r IH]; intros d p n es cap H L C0; destruct n as [s|[e|l]]; cbn [drep fit wfn tall] in *; try contradiction.
  - auto.
  - splits; trivial. destruct H as (_ & (_ & Hl) & _). cbn [blen]. unfold l_len. lia.
  - destruct H as (al & Hw & Hc). assert (E : sa_array s = map snd al) by apply Hw.
    assert (F : Forall (fun n => fit r cap n /\ wfn ubits r n /\ tall r n) (sa_array s)).
    { rewrite E. eapply dchl_len; [exact Hc| |exact L]. cbv beta. intros i n es' H' L'. eapply IH; eauto. }
    splits; [| | |]; try (eapply Forall_impl; [|exact F]; cbv beta; intros x Hx; apply Hx). eauto.
  - auto.
  - destruct H as (H & _). discriminate.
Qed.

Lemma dm_shape : forall w fm lost, dm w fm lost ->
  fit (D b) (length fm + 1) (hm_root w) /\ wfn ubits (D b) (hm_root w) /\ tall (D b) (hm_root w) /\ hm_degree w = (2 ^ b)%N.
Proof using.
  clear Hb Hdeg Hub Hfuel. intros w fm lost (es & Hr & _ & Hp & _ & _ & Hd).
  assert (L : length es <= length fm + 1) by (rewrite <- (Permutation_length Hp), map_length; lia).
  destruct (drep_shape _ _ _ _ _ _ (length fm + 1) Hr L ltac:(lia)) as (F & W & T). auto.
Qed.

Lemma y_new_ok : safe 1 (@hh_new ubits K V (2 ^ b)) [] (fun m G => exists w, dparts m w G /\ dm w [] []).
Proof.
  destruct (dm_new (V := V) ubits dbg b Hb Hdeg Hub keq borrow qeq hash qhash KL HL fuel Hfuel) as (m0 & E & R).
  unfold hh_new. assert (X : hm_root (m0 : hmap K V) = new_empty_branch).
  { unfold hm_new_with_degree in E. destruct (negb (is_power_of_two (2 ^ b))); [discriminate|].
    destruct (negb (2 ^ b <=? DEFAULT_DEGREE ubits)%N); [discriminate|]. injection E as <-. reflexivity. }
  rewrite E. cbn [lift pbind]. exists 0, [], []. splits; trivial. intros a. apply safe_ret.
  exists m0. split; [|exact R]. assert (Ed : hm_degree m0 = (2 ^ b)%N) by (destruct R as (? & R); apply R).
  rewrite Ed. apply (dparts_intro m0 (TB sa_new) []); trivial. rewrite X. unfold new_empty_branch. apply dc_branch; [reflexivity|reflexivity|constructor].
Qed.

Lemma dparts_clone : forall m w G, dparts m w G ->
  safe 0 (hh_clone m) G (fun m' G' => exists G1 G2, G' = G1 ++ G2 /\ dparts m w G1 /\ dparts m' w G2).
Proof using.
  intros m w G R. assert (R' := R). destruct R' as (Es & Ed & Ew & [a c ts] & T & Ep & ->). unfold hh_clone.
  rewrite <- Ep. cbn [pa]. eexists _, _. split; [apply lent_in; now left|]. apply safe_ret.
  eexists [_], [_]. split; [reflexivity|]. split; exact R.
Qed.

Lemma dparts_drop : forall m w fm lost G, dparts m w G -> dm w fm lost -> safe 0 (hh_drop m) G (fun _ G' => G' = []).
Proof using Hb Hdeg Hub.
  clear Hfuel. intros m w fm lost G (Es & Ed & Ew & t & T & Ep & ->) Hm. unfold hh_drop. rewrite <- Ep.
  apply (ddrop_ok _ (D b) (hm_root w)); [apply (dm_shape _ _ _ Hm)| |exact T].
  unfold hh_levels. rewrite Ed, N.log2_pow2 by lia. unfold D. lia.
Qed.

(** [make_mut] of the root, a call on its contents, and what it leaves put back. *)
Lemma yroot : forall X Y (n0 : node) a c ts n1 F (p : C -> prog C (crash (C * bool) (C * X)))
    (kd : nat -> X -> addr -> prog C Y) (ku : bool -> addr -> prog C Y) (Post : crash node (node * X) -> Prop) (Qp : Y -> list own -> Prop),
  dcont n0 c ts ->
  safe n1 (p c) (F ++ map Tree ts) (fun r G => exists o, Post o /\ agree o r G) ->
  (forall k n' x a' c' ts', Post (Done k (n', x)) -> dcont n' c' ts' -> safe 0 (kd k x a') [Tree (PT a' c' ts')] Qp) ->
  (forall n' fl a' c' ts', Post (Unwound n') -> dcont n' c' ts' -> safe 0 (ku fl a') [Tree (PT a' c' ts')] Qp) ->
  safe (n1 + 1) (let* (r, c) := tmake_mut a in
                 let* x := p c in
                 match x with
                 | Unwound (c', lost) => Fill r c' (ku lost r)
                 | Done n (c', x) => Fill r c' (kd n x r)
                 end) (F ++ [Tree (PT a c ts)]) Qp.
Proof using.
  clear Hfuel Hub Hdeg Hb. intros X Y n0 a c ts n1 F p kd ku Post Qp Hc Hp Hd Hu.
  seqq 1 n1 [Tree (PT a c ts)] F (fun (r : addr * C) G => exists a', r = (a', c) /\ G = Held a' :: map Tree ts);
    [apply (dmake_mut_ok n0); exact Hc|].
  intros [a1 c1] G (a' & E & ->). injection E as -> ->.
  eapply (safe_seq _ _ _ n1 0 _ _ (F ++ map Tree ts) [@Held C a']); [exact Hp|perm| |lia].
  intros [k [c' x]|[c' fl]] G (o & Po & H); destruct o as [k0 [n' x0]|n']; cbn [agree] in H; try (destruct H; fail).
  - destruct H as (-> & -> & ts' & -> & Hc').
    exists ts', []. split; [perm|]. split; [exact (dcont_kids _ _ _ Hc')|]. now apply (Hd k0 n').
  - destruct H as (ts' & -> & Hc').
    exists ts', []. split; [perm|]. split; [exact (dcont_kids _ _ _ Hc')|]. now apply (Hu n').
Qed.

(** A heap program ends as the function does. *)
Definition same_end {A B} (R : A -> B -> list own -> Prop) (o : crash (hmap K V) A) (r : crash (hht * bool) B) (G : list own) : Prop :=
  match o, r with
  | Done k x, Done k' y => k' = k /\ R x y G
  | Unwound w, Unwound (m, _) => dparts m w G
  | _, _ => False
  end.
Notation pair_end := (same_end (fun '(w, x) '(m, y) G => y = x /\ dparts m w G)).
Notation map_end := (same_end (fun w m G => dparts m w G)).

Lemma y_insert_mut_ok : forall n m w fm lost G k v, dparts m w G -> dm w fm lost ->
  safe (2 * D b + 2 * length fm + 6) (xh_insert_mut ubits dbg keq hash fuel n m k v) G
    (fun r G' => exists o, c_hm_insert_mut ubits dbg keq hash fuel n w k v = Ok o /\ map_end o r G').
Proof.
  intros n m w fm lost G k v Pt Hm. unfold xh_insert_mut, c_hm_insert_mut.
  destruct n as [|n]; cbn [tucall ucall]; [apply safe_ret; eexists; split; [reflexivity|exact Pt]|].
  destruct (dm_shape _ _ _ Hm) as (F & _ & _ & Hd).
  destruct (cends_ok _ _ _ _ _ _ (a_insert_ok ubits dbg b Hb Hdeg Hub keq borrow qeq hash qhash KL HL fuel Hfuel w fm lost k v Hm) (S n)) as (oc & E).
  unfold c_hm_insert_mut in E. cbn [ucall] in E. rewrite Hd in E |- *.
  destruct (c_hn_insert ubits dbg keq fuel n (mkE k v (hash k)) (hm_root w) 0 (2 ^ b)) as [o| |] eqn:Eo; try discriminate. clear oc E.
  destruct (dparts_inv _ _ _ Pt) as (a & c & ts & -> & Hc & ->). clear Pt.
  cbn [hh_root hh_size hh_degree].
  exists (2 * D b + 2 * (length fm + 1) + 2 + 1), [], [Tree (PT a c ts)].
  split; [lia|]. split; [apply Permutation_refl|]. split; [reflexivity|]. intros p.
  set (x := mkE k v (hash k)) in *.
  eapply (yroot _ _ (hm_root w) a c ts _ [Tree (et (p, hash k) x)]
            (fun c => xn_insert ubits dbg keq fuel n k (p, hash k) c 0 (2 ^ b))
            (fun n new r => Ret (Done n (mkHH r (if (new : bool) then hm_size w + 1 else hm_size w) (2 ^ b))))
            (fun lost r => Ret (Unwound (mkHH r (hm_size w) (2 ^ b), lost))) (fun o' => o' = o)); [exact Hc| | |].
  - eapply safe_mono; [apply le_n| |apply (yn_insert keq ubits dbg b Hb Hdeg Hub (D b) n 0 (hm_root w) c ts x (p, hash k)); eauto; lia].
    cbv beta. intros r G' H. eauto.
  - intros k1 n' f a' c' ts' <- Hc'. apply safe_ret. eexists. split; [reflexivity|]. split; [reflexivity|].
    apply (dparts_intro (mkHM n' (if f then hm_size w + 1 else hm_size w) (2 ^ b))); trivial.
  - intros n' fl a' c' ts' <- Hc'. apply safe_ret. eexists. split; [reflexivity|]. cbn [same_end].
    replace (hm_with w n') with (mkHM n' (hm_size w) (2 ^ b)) by (unfold hm_with; now rewrite Hd).
    apply (dparts_intro (mkHM n' (hm_size w) (2 ^ b))); trivial.
Qed.

Lemma y_remove_mut_ok : forall n m w fm lost G q, dparts m w G -> dm w fm lost ->
  safe (2 * D b + 2 * length fm + 3) (xh_remove_mut ubits dbg borrow qeq qhash fuel n m q) G
    (fun r G' => exists o, a_hm_remove_mut ubits dbg borrow qeq qhash fuel n w q = Ok o /\ pair_end o r G').
Proof.
  intros n m w fm lost G q Pt Hm. unfold xh_remove_mut, a_hm_remove_mut.
  destruct n as [|n]; cbn [tucall ucall]; [apply safe_ret; eexists; split; [reflexivity|exact Pt]|].
  destruct (dm_shape _ _ _ Hm) as (F & W & _ & Hd).
  destruct (cends_ok _ _ _ _ _ _ (a_remove_ok ubits dbg b Hb Hdeg Hub keq borrow qeq hash qhash KL HL fuel Hfuel w fm lost q Hm) (S n)) as (oc & E).
  unfold a_hm_remove_mut in E. cbn [ucall] in E. rewrite Hd in E |- *.
  destruct (a_hn_remove ubits dbg borrow qeq fuel n q (qhash q) (hm_root w) 0 (2 ^ b)) as [o| |] eqn:Eo; try discriminate.
  destruct (dparts_inv _ _ _ Pt) as (a & c & ts & -> & Hc & ->). clear Pt.
  cbn [hh_root hh_size hh_degree].
  replace (2 * D b + 2 * length fm + 3) with (2 * D b + 2 * (length fm + 1) + 1) by lia.
  eapply (yroot _ _ (hm_root w) a c ts _ []
            (fun c => xn_remove ubits dbg borrow qeq fuel n q (qhash q) c 0 (2 ^ b))
            (fun n removed r => if (removed : bool) then
                let* size := lift (csub (hm_size w) 1) in Ret (Done n (mkHH r size (2 ^ b), true))
              else Ret (Done n (mkHH r (hm_size w) (2 ^ b), false)))
            (fun lost r => Ret (Unwound (mkHH r (hm_size w) (2 ^ b), lost))) (fun o' => o' = o)); [exact Hc| | |].
  - eapply safe_mono; [apply le_n| |apply (yn_remove ubits dbg borrow qeq q (qhash q) b Hb Hdeg Hub (D b) n 0 (hm_root w) c ts); eauto; lia].
    cbv beta. intros r G' H. eauto.
  - intros k1 n' f a' c' ts' <- Hc'. cbn [cbind bind] in E |- *. destruct f.
    + destruct (csub (hm_size w) 1) as [sz| |]; try discriminate. cbn [lift pbind bind]. apply safe_ret.
      eexists. split; [reflexivity|]. split; [reflexivity|]. split; [reflexivity|].
      apply (dparts_intro (mkHM n' sz (2 ^ b))); trivial.
    + apply safe_ret. eexists. split; [reflexivity|]. split; [reflexivity|]. split; [reflexivity|].
      apply (dparts_intro (mkHM n' (hm_size w) (2 ^ b))); trivial.
  - intros n' fl a' c' ts' <- Hc'. apply safe_ret. eexists. split; [reflexivity|]. cbn [same_end].
    replace (hm_with w n') with (mkHM n' (hm_size w) (2 ^ b)) by (unfold hm_with; now rewrite Hd).
    apply (dparts_intro (mkHM n' (hm_size w) (2 ^ b))); trivial.
Qed.

Lemma y_get_mut_ok : forall n m w fm lost G q g, dparts m w G -> dm w fm lost ->
  safe (D b + 2 * length fm + 8) (xh_get_mut ubits dbg borrow qeq qhash fuel n m q g) G
    (fun r G' => exists sh o, c_hm_get_mut ubits dbg borrow qeq qhash fuel n sh w q g = Ok o /\ pair_end o r G').
Proof.
  intros n m w fm lost G q g Pt Hm. unfold xh_get_mut, c_hm_get_mut.
  destruct n as [|n]; cbn [tucall ucall]; [apply safe_ret; exists true; eexists; split; [reflexivity|exact Pt]|].
  destruct (dm_shape _ _ _ Hm) as (F & _ & _ & Hd).
  assert (Eo : forall sh, exists o, c_hn_get_mut ubits dbg borrow qeq fuel n sh q (qhash q) g (hm_root w) 0 (2 ^ b) = Ok o).
  { intros sh.
    destruct (cends_ok _ _ _ _ _ _ (a_get_mut_ok ubits dbg b Hb Hdeg Hub keq borrow qeq hash qhash KL HL fuel Hfuel sh w fm lost q g Hm) (S n)) as (oc & E).
    unfold c_hm_get_mut in E. cbn [ucall] in E. rewrite Hd in E.
    destruct (c_hn_get_mut ubits dbg borrow qeq fuel n sh q (qhash q) g (hm_root w) 0 (2 ^ b)) as [o| |]; try discriminate. eauto. }
  destruct (dparts_inv _ _ _ Pt) as (a & c & ts & -> & Hc & ->). clear Pt.
  cbn [hh_root hh_size hh_degree]. rewrite Hd.
  replace (D b + 2 * length fm + 8) with (D b + 2 * (length fm + 1) + 5 + 1) by lia.
  eapply (yroot _ _ (hm_root w) a c ts _ []
            (fun c => xn_get_mut ubits dbg borrow qeq fuel n q (qhash q) g c 0 (2 ^ b))
            (fun n x r => Ret (Done n (mkHH r (hm_size w) (2 ^ b), x)))
            (fun lost r => Ret (Unwound (mkHH r (hm_size w) (2 ^ b), lost)))
            (fun o => exists sh, c_hn_get_mut ubits dbg borrow qeq fuel n sh q (qhash q) g (hm_root w) 0 (2 ^ b) = Ok o)); [exact Hc| | |].
  - eapply safe_mono; [apply le_n| |apply (yn_get_mut ubits dbg borrow qeq q (qhash q) g (D b) n 0 (2 ^ b) (hm_root w) c ts); eauto].
    cbv beta. intros r G' (sh & o & E & H). eauto.
  - intros k1 n' x a' c' ts' (sh & E) Hc'. apply safe_ret. exists sh. eexists. rewrite E. split; [reflexivity|].
    split; [reflexivity|]. split; [reflexivity|]. apply (dparts_intro (mkHM n' (hm_size w) (2 ^ b))); trivial.
  - intros n' fl a' c' ts' (sh & E) Hc'. apply safe_ret. exists sh. eexists. rewrite E. split; [reflexivity|]. cbn [same_end].
    replace (hm_with w n') with (mkHM n' (hm_size w) (2 ^ b)) by (unfold hm_with; now rewrite Hd).
    apply (dparts_intro (mkHM n' (hm_size w) (2 ^ b))); trivial.
Qed.

Lemma y_get_ok : forall n m w fm lost G q, dparts m w G -> dm w fm lost ->
  safe 0 (xh_get ubits dbg borrow qeq qhash fuel n m q) G
    (fun r G' => G' = G /\ exists o, c_hm_find ubits dbg borrow qeq qhash fuel n w q = Ok o /\
       match o, r with
       | Done k x, Done k' y => k' = k /\ y = option_map kv x
       | Unwound w', Unwound _ => w' = w
       | _, _ => False
       end).
Proof.
  intros n m w fm lost G q Pt Hm. unfold xh_get, c_hm_find.
  destruct n as [|n]; cbn [tucall ucall]; [apply safe_ret; split; [reflexivity|]; eexists; split; reflexivity|].
  destruct (dm_shape _ _ _ Hm) as (F & _ & _ & Hd).
  destruct (cends_ok _ _ _ _ _ _ (a_find_ok ubits dbg b Hb Hdeg Hub keq borrow qeq hash qhash KL HL fuel Hfuel w fm lost q Hm) (S n)) as (oc & E).
  unfold c_hm_find in E. cbn [ucall] in E. rewrite Hd in E |- *.
  destruct (c_hn_get ubits dbg borrow qeq fuel n q (qhash q) (hm_root w) 0 (2 ^ b)) as [o| |] eqn:Eo; try discriminate.
  destruct (dparts_inv _ _ _ Pt) as (a & c & ts & -> & Hc & ->). clear Pt. cbn [hh_root hh_degree].
  assert (La : lent (PT a c ts) [Tree (PT a c ts)]) by (apply lent_in; now left).
  eexists _, _. split; [exact La|]. intros _.
  eapply (safe_seq _ _ _ 0 0 _ _ [Tree (PT a c ts)] []); [apply (yn_get ubits dbg borrow qeq q (qhash q) fuel n (hm_root w) c ts [Tree (PT a c ts)] 0 (2 ^ b) o)|perm| |lia]; trivial.
  - intros t I. eapply lent_kid; [exact La|exact I].
  - intros r G' (-> & HF). rewrite app_nil_r. destruct o as [k x|[]], r as [k' y|[]]; cbn [yfound] in HF; try (destruct HF; fail).
    + destruct HF as (-> & Fo). destruct x as [x|]; cbn [found] in Fo.
      * destruct Fo as (e & -> & Ee & Le). apply (entry_lent _ e x); [exact Le|]. apply safe_ret. split; [reflexivity|].
        eexists. split; [reflexivity|]. split; reflexivity.
      * subst y. apply safe_ret. split; [reflexivity|]. eexists. split; [reflexivity|]. split; reflexivity.
    + apply safe_ret. split; [reflexivity|]. eexists. split; [reflexivity|]. reflexivity.
Qed.

(** One API call: as the function, for some answer to whether [get_mut] finds a shared entry. *)
Definition ycost (no : nat * map_op K V Q) (size : nat) : nat :=
  match snd no with
  | MInsert _ _ | MInsertMut _ _ | MRemove _ | MRemoveMut _ | MGetMut _ _ => 2 * D b + 2 * size + 8
  | _ => 0
  end.
Lemma ycost_mono : forall o n m, n <= m -> ycost o n <= ycost o m.
Proof using. clear. intros [k o] n m H. unfold ycost. cbn [snd]. destruct o; lia. Qed.

Definition step_end (o : crash (hmap K V) (hmap K V * map_obs K V)) (r : hht * option (map_obs K V)) (G : list own) : Prop :=
  match o with
  | Done _ (w, a) => snd r = Some a /\ dparts (fst r) w G
  | Unwound w => snd r = None /\ dparts (fst r) w G
  end.

Lemma yread_ok : forall f q n m w fm lost G, dparts m w G -> dm w fm lost ->
  safe 0 (yread m (xh_get ubits dbg borrow qeq qhash fuel n m q) f) G
    (fun r G' => exists oc, cbind (c_hm_find ubits dbg borrow qeq qhash fuel n w q) (fun m' => m')
       (fun n o => Ok (Done n (w, f (option_map kv o)))) = Ok oc /\ step_end oc r G').
Proof.
  intros f q n m w fm lost G Pt Hm. unfold yread.
  eapply (safe_seq _ _ _ 0 0 _ _ G []); [apply (y_get_ok n m w fm lost G q Pt Hm)|perm| |lia].
  intros r G' (-> & o & E & H). rewrite app_nil_r, E. destruct o as [k x|w'], r as [k' y|[]]; try (destruct H; fail).
  - destruct H as (-> & ->). apply safe_ret. eexists. split; [reflexivity|]. cbn [step_end fst snd]. auto.
  - subst w'. apply safe_ret. eexists. split; [reflexivity|]. cbn [step_end fst snd]. auto.
Qed.

Theorem y_step_sim : forall n o m w fm lost G, dparts m w G -> dm w fm lost ->
  safe (ycost (n, o) (length fm)) (yh_step ubits dbg keq borrow qeq hash qhash fuel (n, o) m) G
    (fun r G' => exists sh oc, a_hm_step ubits dbg keq borrow qeq hash qhash fuel n sh o w = Ok oc /\ step_end oc r G').
Proof.
  intros n o m w fm lost G Pt Hm. unfold ycost. cbn [snd].
  assert (Rd : forall (p : prog C (hht * option (map_obs K V))) oc, safe 0 p G (fun r G' => exists oc', oc = Ok oc' /\ step_end oc' r G') ->
    safe 0 p G (fun r G' => exists sh : bool, exists oc', oc = Ok oc' /\ step_end oc' r G')).
  { intros p oc H. eapply safe_mono; [apply le_n| |exact H]. cbv beta. intros r G' H'. now exists true. }
  destruct o as [k v|k v|q|q|q g|q|q|q| | |]; cbn [yh_step a_hm_step c_hm_step].
  - (* insert *)
    unfold yseen, xh_insert. apply safe_assoc.
    seq 0 (2 * D b + 2 * length fm + 6) G (@nil own) ltac:(apply (dparts_clone m w G Pt)).
    intros c G' (G1 & G2 & -> & R1 & R2). apply safe_assoc.
    seq (2 * D b + 2 * length fm + 6) 0 G2 G1 ltac:(apply (y_insert_mut_ok n c w fm lost G2 k v R2 Hm)).
    intros r G' (o & E & H). rewrite E.
    pose proof (cends_any _ _ _ _ _ _ (a_insert_ok ubits dbg b Hb Hdeg Hub keq borrow qeq hash qhash KL HL fuel Hfuel w fm lost k v Hm) n o E) as A.
    destruct o as [kk w'|w'], r as [k' m'|[m' fl]]; cbn [same_end] in H; try (destruct H; fail); apply safe_assoc.
    + destruct H as (-> & H). seq 0 0 G1 G' ltac:(apply (dparts_drop m w fm lost G1 R1 Hm)). intros [] G3 ->. apply safe_ret.
      exists true. eexists. split; [reflexivity|]. cbn [step_end fst snd app]. auto.
    + destruct A as [(fm' & gone & Hm' & _)|[]].
      seq 0 0 G' G1 ltac:(apply (dparts_drop m' w' fm' (gone ++ lost) G' H Hm')). intros [] G3 ->. apply safe_ret.
      exists true. eexists. split; [reflexivity|]. cbn [step_end fst snd app]. auto.
  - unfold yseen.
    seq (2 * D b + 2 * length fm + 6) 0 G (@nil own) ltac:(apply (y_insert_mut_ok n m w fm lost G k v Pt Hm)).
    intros r G' (o & E & H). rewrite E, app_nil_r.
    destruct o as [kk w'|w'], r as [k' m'|[m' fl]]; cbn [same_end] in H; try (destruct H; fail); apply safe_ret.
    + destruct H as (-> & H). exists true. eexists. split; [reflexivity|]. cbn [step_end fst snd]. auto.
    + exists true. eexists. split; [reflexivity|]. cbn [step_end fst snd]. auto.
  - (* remove *)
    unfold yseen, xh_remove. apply safe_assoc.
    seq 0 (2 * D b + 2 * length fm + 3) G (@nil own) ltac:(apply (dparts_clone m w G Pt)).
    intros c G' (G1 & G2 & -> & R1 & R2). apply safe_assoc.
    seq (2 * D b + 2 * length fm + 3) 0 G2 G1 ltac:(apply (y_remove_mut_ok n c w fm lost G2 q R2 Hm)).
    intros r G' (o & E & H). rewrite E.
    pose proof (cends_any _ _ _ _ _ _ (a_remove_ok ubits dbg b Hb Hdeg Hub keq borrow qeq hash qhash KL HL fuel Hfuel w fm lost q Hm) n o E) as A.
    destruct o as [kk [w' x]|w'], r as [k' [m' y]|[m' fl]]; cbn [same_end] in H; try (destruct H; fail).
    + destruct H as (-> & -> & H). destruct A as (_ & Hm' & _). destruct x; apply safe_assoc.
      * seq 0 0 G1 G' ltac:(apply (dparts_drop m w fm lost G1 R1 Hm)). intros [] G3 ->. apply safe_ret.
        exists true. eexists. split; [reflexivity|]. cbn [step_end fst snd app]. auto.
      * seq 0 0 G1 G' ltac:(apply (dparts_clone m w G1 R1)).
        intros c2 G3 (G4 & G5 & -> & R4 & R5). apply safe_assoc.
        seq 0 0 G' (G4 ++ G5) ltac:(apply (dparts_drop m' w' _ lost G' H Hm')). intros [] G6 ->. apply safe_assoc.
        seq 0 0 G4 G5 ltac:(apply (dparts_drop m w fm lost G4 R4 Hm)). intros [] G7 ->. apply safe_ret.
        exists true. eexists. split; [reflexivity|]. cbn [step_end fst snd app]. auto.
    + apply safe_assoc. assert (D' : exists fm' lost', dm w' fm' lost').
      { destruct A as [(fm' & gone & Hm' & _)|(_ & _ & Hm')]; eauto. }
      destruct D' as (fm' & lost' & Hm').
      seq 0 0 G' G1 ltac:(apply (dparts_drop m' w' fm' lost' G' H Hm')). intros [] G3 ->. apply safe_ret.
      exists true. eexists. split; [reflexivity|]. cbn [step_end fst snd app]. auto.
  - unfold yseen.
    seq (2 * D b + 2 * length fm + 3) 0 G (@nil own) ltac:(apply (y_remove_mut_ok n m w fm lost G q Pt Hm)).
    intros r G' (o & E & H). rewrite E, app_nil_r.
    destruct o as [kk [w' x]|w'], r as [k' [m' y]|[m' fl]]; cbn [same_end] in H; try (destruct H; fail); apply safe_ret.
    + destruct H as (-> & -> & H). exists true. eexists. split; [reflexivity|]. cbn [step_end fst snd]. auto.
    + exists true. eexists. split; [reflexivity|]. cbn [step_end fst snd]. auto.
  - unfold yseen.
    seq (D b + 2 * length fm + 8) 0 G (@nil own) ltac:(apply (y_get_mut_ok n m w fm lost G q g Pt Hm)).
    intros r G' (sh & o & E & H). rewrite app_nil_r.
    destruct o as [kk [w' x]|w'], r as [k' [m' y]|[m' fl]]; cbn [same_end] in H; try (destruct H; fail); apply safe_ret.
    + destruct H as (-> & -> & H). exists sh. eexists. rewrite E. split; [reflexivity|]. cbn [step_end fst snd]. auto.
    + exists sh. eexists. rewrite E. split; [reflexivity|]. cbn [step_end fst snd]. auto.
  - apply Rd. eapply safe_mono; [apply le_n| |exact (yread_ok (fun x => MoVal (option_map snd x)) q n m w fm lost G Pt Hm)].
    cbv beta. intros r G' (oc & E & H). exists oc. split; [|exact H]. rewrite <- E.
    destruct (c_hm_find _ _ _ _ _ _ _ _ _) as [[k [x|]|s]| |]; reflexivity.
  - apply Rd. eapply safe_mono; [apply le_n| |exact (yread_ok (fun x => MoKV x) q n m w fm lost G Pt Hm)].
    cbv beta. intros r G' (oc & E & H). exists oc. split; [|exact H]. rewrite <- E.
    destruct (c_hm_find _ _ _ _ _ _ _ _ _) as [[k [x|]|s]| |]; reflexivity.
  - apply Rd. eapply safe_mono; [apply le_n| |exact (yread_ok (fun x => MoBool (is_some x)) q n m w fm lost G Pt Hm)].
    cbv beta. intros r G' (oc & E & H). exists oc. split; [|exact H]. rewrite <- E.
    destruct (c_hm_find _ _ _ _ _ _ _ _ _) as [[k [x|]|s]| |]; reflexivity.
  - apply Rd. apply safe_ret. eexists. split; [reflexivity|]. cbn [step_end fst snd]. split; [|exact Pt].
    destruct Pt as (-> & _). reflexivity.
  - apply Rd. apply safe_ret. eexists. split; [reflexivity|]. cbn [step_end fst snd]. split; [|exact Pt].
    destruct Pt as (-> & _). reflexivity.
  - apply Rd. seq 0 0 G (@nil own) ltac:(apply (dparts_clone m w G Pt)).
    intros c G' (G1 & G2 & -> & R1 & R2). rewrite app_nil_r.
    seq 0 0 G2 G1 ltac:(apply (dparts_drop c w fm lost G2 R2 Hm)).
    intros [] G3 ->. apply safe_ret. eexists. split; [reflexivity|]. cbn [step_end fst snd app]. auto.
Qed.
End M.
