(** * Steps of HashTrieMap: whole calls (for C50) *)
From Coq Require Import List NArith Arith Lia Bool Permutation.
From Verif Require Import Base Spec SpecMap Sim ListModel ListProofs SparseModel SparseProofs HashModel HashProofs HashHist
  PermSolve HeapModel HeapProofs HeapSafe HeapLooks HeapClient HeapList HeapListProofs HeapVec HeapVecProofs HeapHash
  HeapHashProofs HeapHashNodes HeapHashMap HeapWork HeapWorkSeq HeapWorkHash.
Import ListNotations.
Local Open Scope prog_scope.

(** ** Dropping a trie is paid for by the cells it frees *)
Section Drop_.
Context {K V : Type} (W : nat).
Hypothesis HW : 2 <= W.
Notation C := (tcell K V).
Notation thin := (fun c : C => length (tkids c) <= W).
Notation pays := (pays (W + 3) thin).

Lemma t_drops : forall f a, pays 1 (drop_ptr (@tkids K V) f a) any.
Proof. apply pays_drop. intros c L. lia. Qed.

Lemma tdrop_pays : forall f a, pays 1 (@tdrop K V f a) any.
Proof.
  induction f as [|f IH]; intros a; cbn [tdrop]; [exact I|].
  exists 0. split; [trivial|]. split; [exact I|]. intros c Fc.
  exists (W + 2). split; [lia|].
  eapply pay_call with (n1 := W + 1) (R := any); [|lia|].
  - destruct c as [s|e|l|v nx|e|e]; cbn [tglue tkids] in *; try exact I.
    + eapply pays_le; [apply pays_each; exact IH|lia].
    + eapply pays_le; [apply t_drops|lia].
    + eapply pays_le; [apply (drop_pays tkids t_isN 2 (W + 3) thin (fun _ => 1) t_drops); [lia|trivial]|lia].
  - intros _ _. exists 0. split; [lia|]. exact I.
Qed.
End Drop_.

(** ** Calls *)
Lemma two_W : forall b, (0 < b)%N -> 2 <= N.to_nat (2 ^ b).
Proof.
  intros b H. assert (2 ^ 1 <= 2 ^ b)%N by (apply N.pow_le_mono_r; lia). change (2 ^ 1)%N with 2%N in *. lia.
Qed.

Section M.
Variable ubits : N.
Variable dbg : bool.
Variable b : N.
Hypothesis Hb : (0 < b)%N.
Hypothesis Hdeg : (2 ^ b <= ubits)%N.
Hypothesis Hub : (ubits <= 64)%N.
Context {K V Q : Type}.
Variable keq : K -> K -> bool.
Variable borrow : K -> Q.
Variable qeq : Q -> Q -> bool.
Variable hash : K -> N.
Variable qhash : Q -> N.
Hypothesis KL : key_laws keq borrow qeq.
Hypothesis HL : hash_laws borrow qeq hash qhash.
Variable fuel : nat.
Hypothesis Hfuel : (2 * D b < fuel)%nat.
Notation C := (tcell K V).
Notation own := (@own C).
Notation ptree := (@ptree C).
Notation entry := (hentry K V).
Notation node := (hnode K V).
Notation W := (N.to_nat (2 ^ b)).
Notation thin := (fun c : C => length (tkids c) <= W).
Notation hhrep := (hhrep ubits b keq hash).
Notation spec := (@ht_call_spec K V Q keq borrow qeq).

Notation HW := (two_W b Hb).

Lemma rep_slim : forall w (fm : fmap K V), hm_rep ubits b keq hash w fm -> slim W (D b) (hm_root w).
Proof.
  intros w fm (es & Hr & _). exact (hrep_slim ubits dbg W b Hb Hdeg Hub (le_n _) _ _ _ _ Hr).
Qed.

Section Credit.
Variable cr : nat.
Notation dear := (dear (@tkids K V) cr thin).

Lemma hh_new_dear : dear (1 + cr) (@hh_new ubits K V (2 ^ b)) [] (fun m G => hhrep m [] G).
Proof.
  destruct (hm_new_ok (strict:=true) (V := V) ubits dbg b Hb Hdeg Hub keq borrow qeq hash qhash KL HL fuel Hfuel) as (m0 & E & R).
  unfold hh_new. assert (X : hm_root (m0 : hmap K V) = new_empty_branch).
  { unfold hm_new_with_degree in E. destruct (negb (is_power_of_two (2 ^ b))); [discriminate|].
    destruct (negb (2 ^ b <=? DEFAULT_DEGREE ubits)%N); [discriminate|]. injection E as <-. reflexivity. }
  rewrite E. cbn [lift pbind]. apply (dear_new _ _ _ _ _ [] _ _ []); [lia|cbn; lia|perm|trivial|].
  intros a. apply dear_ret. apply (hhrep_intro ubits b keq hash m0 [] (TB sa_new) []); trivial. rewrite X. apply sim_cont, sim_new.
Qed.

Lemma hh_clone_dear : forall m fm G n, hhrep m fm G -> 1 <= n ->
  dear n (hh_clone m) G (fun m' G' => exists G1 G2, G' = G1 ++ G2 /\ hhrep m fm G1 /\ hhrep m' fm G2).
Proof.
  intros m fm G n R Ln. assert (R' := R). destruct R' as (w & Rw & Es & Ed & [a c ts] & T & Ep & ->). unfold hh_clone.
  rewrite <- Ep. cbn [pa]. eapply dear_clone; [apply lent_in; now left|exact Ln|]. apply dear_ret.
  eexists [_], [_]. split; [reflexivity|]. split; exact R.
Qed.

Lemma root_dear : forall X Y (n n' : node) a c ts (f : X) n1 n2 F (p : C -> prog C (C * X)) (k : X -> addr -> prog C Y) (Qp : Y -> list own -> Prop),
  ncont n c ts -> slim W (D b) n' ->
  dear n1 (p c) (F ++ map Tree ts) (leaves f n') ->
  (forall a' c' ts', ncont n' c' ts' -> dear 0 (k f a') [Tree (PT a' c' ts')] Qp) ->
  mmc cr W + n1 + 1 <= n2 ->
  dear n2 (let* (r, c) := tmake_mut a in let* (c', x) := p c in Fill r c' (k x r)) (F ++ [Tree (PT a c ts)]) Qp.
Proof using Hb.
  clear Hfuel Hub Hdeg. intros X Y n n' a c ts f n1 n2 F p k Qp Hc Sl Hp Hk L.
  dseq (mmc cr W) (n1 + 1) [Tree (PT a c ts)] F (fun (r : addr * C) G => exists a', r = (a', c) /\ G = Held a' :: map Tree ts);
    [apply (tmake_mut_dear cr W HW n); exact Hc|].
  intros [a1 c1] G (a' & E & ->). injection E as -> ->.
  dseq n1 1 (F ++ map Tree ts) [@Held C a'] (@leaves K V X f n'); [exact Hp|].
  intros [c' x] G (c2 & ts' & E & Hc' & ->). injection E as -> ->.
  apply (dear_fill _ _ _ _ _ _ ts' _ _ []); [lia|exact (slim_thin W HW _ _ _ _ Sl Hc')|perm|exact (ncont_kids _ _ _ Hc')|].
  apply Hk. exact Hc'.
Qed.

Definition insert_cost (fm : fmap K V) (k : K) : nat :=
  1 + cr + mmc cr W + ins_cost cr W (D b) (clash hash (hash k) fm + 1) + 1.
Definition remove_cost (fm : fmap K V) (q : Q) : nat :=
  mmc cr W + rem_cost cr W (D b) (clash hash (qhash q) fm + 1) + 1.
Definition get_mut_cost (fm : fmap K V) (q : Q) : nat :=
  mmc cr W + mut_cost cr W (D b) (clash hash (qhash q) fm + 1) + 1.
Definition get_cost (fm : fmap K V) (q : Q) : nat := D b + 3 * (clash hash (qhash q) fm + 1) + 2.
Definition read_cost (fm : fmap K V) (k : nat) : nat := (3 * D b + 3) * Nat.min (length fm) k + 1.

Lemma hh_insert_mut_dear : forall m fm G k v, hhrep m fm G ->
  dear (insert_cost fm k) (hh_insert_mut ubits dbg keq hash fuel m k v) G
    (fun m' G' => hhrep m' (fm_insert keq k v fm) G').
Proof.
  intros m fm G k v R. destruct (hhrep_inv _ _ _ _ _ _ _ R) as (w & es & a & c & ts & Rw & Hr & Hh & Hp & Hu & Hs & Hd & -> & Hc & ->).
  destruct (hm_insert_ok ubits dbg b Hb Hdeg Hub keq borrow qeq hash qhash KL HL fuel Hfuel w fm k v Rw) as (w' & E & R').
  unfold hm_insert_mut in E. inv E x Ex. destruct x as [n' f]. injection E as <-.
  unfold hh_insert_mut, insert_cost. cbn [hh_root hh_size hh_degree].
  apply (dear_new _ _ _ _ _ [] _ _ [Tree (PT a c ts)]); [lia|cbn; lia|perm|reflexivity|].
  intros p. rewrite Hd in Ex.
  set (x := mkE k v (hash k)).
  assert (Sl : slim W (D b) n') by exact (rep_slim _ _ R').
  eapply (root_dear _ _ (hm_root w) n' a c ts f _ _ [Tree (et (p, hash k) x)]); [exact Hc|exact Sl| | |].
  - apply (tn_insert_dear ubits dbg cr W HW keq b Hb Hdeg Hub (D b) 0 (hm_root w) c ts x (p, hash k) n' f (clash hash (hash k) fm + 1)); trivial.
    + exact (rep_slim _ _ Rw).
    + eapply (rep_pcap ubits dbg b Hb Hdeg Hub borrow qeq hash qhash HL fuel Hfuel); eauto. exact (hash_lt borrow qeq hash qhash HL k).
    + lia.
  - intros a' c' ts' Hc'. apply dear_ret. rewrite <- Hd.
    exact (hhrep_intro _ _ _ _ _ _ c' ts' a' R' Hc').
  - lia.
Qed.

Lemma hh_remove_mut_dear : forall m fm G q, hhrep m fm G ->
  dear (remove_cost fm q) (hh_remove_mut ubits dbg borrow qeq qhash fuel m q) G
    (fun x G' => snd x = is_some (fm_find borrow qeq q fm) /\ hhrep (fst x) (fm_remove borrow qeq q fm) G').
Proof.
  intros m fm G q R. destruct (hhrep_inv _ _ _ _ _ _ _ R) as (w & es & a & c & ts & Rw & Hr & Hh & Hp & Hu & Hs & Hd & -> & Hc & ->).
  destruct (hm_remove_ok ubits dbg b Hb Hdeg Hub keq borrow qeq hash qhash KL HL fuel Hfuel w fm q Rw) as (w' & E & R' & _).
  unfold hm_remove_mut in E. inv E x Ex. destruct x as [n' f].
  unfold hh_remove_mut, remove_cost. cbn [hh_root hh_size hh_degree].
  rewrite Hd in Ex.
  assert (Sl : slim W (D b) n').
  { assert (X := rep_slim _ _ R'). destruct f; [inv E sz Ez|]; injection E as <- _; exact X. }
  eapply (root_dear _ _ (hm_root w) n' a c ts f _ _ []); [exact Hc|exact Sl| | |].
  - apply (tn_remove_dear ubits dbg cr W HW borrow qeq q (qhash q) b Hb Hdeg Hub (le_n _) (D b) 0 (hm_root w) es c ts n' f
      (clash hash (qhash q) fm + 1)); trivial.
    + lia.
    + eapply (root_empty ubits dbg b Hb Hdeg Hub keq borrow qeq hash qhash KL HL fuel Hfuel). exact Hr.
    + eapply (rep_uniq_q ubits dbg b Hb Hdeg Hub keq borrow qeq hash qhash KL HL fuel Hfuel); eauto.
    + eapply (rep_pcap ubits dbg b Hb Hdeg Hub borrow qeq hash qhash HL fuel Hfuel); eauto. apply (hl_range _ _ _ _ HL).
  - intros a' c' ts' Hc'. destruct f.
    + inv E sz Ez. rewrite Ez. cbn [lift pbind]. injection E as <- <-. apply dear_ret. split; [reflexivity|].
      cbn [fst]. rewrite <- Hd. exact (hhrep_intro _ _ _ _ _ _ c' ts' a' R' Hc').
    + injection E as <- <-. apply dear_ret. split; [reflexivity|].
      cbn [fst]. rewrite <- Hd. exact (hhrep_intro _ _ _ _ _ _ c' ts' a' R' Hc').
  - lia.
Qed.

Lemma hh_get_mut_dear : forall m fm G q g, hhrep m fm G ->
  dear (get_mut_cost fm q) (hh_get_mut ubits dbg borrow qeq qhash fuel m q g) G
    (fun x G' => snd x = option_map snd (fm_find borrow qeq q fm) /\ hhrep (fst x) (fm_modify borrow qeq q g fm) G').
Proof.
  intros m fm G q g R. destruct (hhrep_inv _ _ _ _ _ _ _ R) as (w & es & a & c & ts & Rw & Hr & Hh & Hp & Hu & Hs & Hd & -> & Hc & ->).
  destruct (hm_get_mut_ok ubits dbg b Hb Hdeg Hub keq borrow qeq hash qhash KL HL fuel Hfuel w fm q g Rw) as (w' & E & R').
  unfold hm_get_mut in E. inv E x Ex. destruct x as [n' f]. injection E as <- <-.
  unfold hh_get_mut, get_mut_cost. cbn [hh_root hh_size hh_degree].
  rewrite Hd in Ex.
  assert (Sl : slim W (D b) n') by exact (rep_slim _ _ R').
  eapply (root_dear _ _ (hm_root w) n' a c ts f _ _ []); [exact Hc|exact Sl| | |].
  - apply (tn_get_mut_dear ubits dbg cr W HW borrow qeq q (qhash q) b g (D b) 0 (hm_root w) c ts n' f (clash hash (qhash q) fm + 1)); trivial.
    + exact (rep_slim _ _ Rw).
    + eapply (rep_pcap ubits dbg b Hb Hdeg Hub borrow qeq hash qhash HL fuel Hfuel); eauto. apply (hl_range _ _ _ _ HL).
  - intros a' c' ts' Hc'. apply dear_ret. split; [reflexivity|]. cbn [fst]. rewrite <- Hd.
    exact (hhrep_intro _ _ _ _ _ _ c' ts' a' R' Hc').
  - lia.
Qed.

Lemma hh_get_dear : forall X m fm G q (k : option (K * V) -> prog C X) n Qp, hhrep m fm G ->
  get_cost fm q <= n ->
  dear 0 (k (fm_find borrow qeq q fm)) G Qp ->
  dear n (let* o := hh_get ubits dbg borrow qeq qhash fuel m q in k o) G Qp.
Proof.
  intros X m fm G q k n Qp R Ln S. unfold get_cost in Ln.
  destruct (hhrep_inv _ _ _ _ _ _ _ R) as (w & es & a & c & ts & Rw & Hr & Hh & Hp & Hu & Hs & Hd & -> & Hc & ->).
  destruct (hm_find_ok ubits dbg b Hb Hdeg Hub keq borrow qeq hash qhash KL HL fuel Hfuel w fm q Rw) as (o & E & Eo).
  unfold hm_find in E. rewrite Hd in E. unfold hh_get. cbn [hh_root hh_degree pbind].
  assert (La : lent (PT a c ts) [Tree (PT a c ts)]) by (apply lent_in; now left).
  eapply dear_read; [exact La|lia|]. apply dear_assoc.
  dseq (D b + 3 * (clash hash (qhash q) fm + 1)) 1 [Tree (PT a c ts)] (@nil own)
    (fun (r : option hewh) G' => G' = [Tree (PT a c ts)] /\ found [Tree (PT a c ts)] o r).
  - apply (tn_get_dear ubits dbg cr W HW borrow qeq q (qhash q) fuel (hm_root w) c ts); trivial.
    + eapply (hrep_tall ubits b). exact Hr.
    + eapply (rep_pcap ubits dbg b Hb Hdeg Hub borrow qeq hash qhash HL fuel Hfuel); eauto. apply (hl_range _ _ _ _ HL).
    + intros t I. eapply lent_kid; [exact La|exact I].
  - intros r G' (-> & Fo). rewrite app_nil_r. destruct o as [x|]; cbn [found option_map] in *.
    + destruct Fo as (e & -> & Ee & Le). rewrite <- Eo in S. unfold read_entry. cbn [pbind].
      apply (dear_read _ _ _ _ (fst e) (TE (e_key x, e_val x)) []); [exact Le|lia|]. exact S.
    + subst r. cbn [pbind]. rewrite <- Eo in S. eapply dear_le; [exact S|lia].
Qed.

(** The calls that drop no map. *)
Definition ht_direct (o : ht_call K V Q) : bool :=
  match o with TOp (MInsert _ _) | TOp (MRemove _) | TOp MClone => false | _ => true end.
Definition direct_cost (o : ht_call K V Q) (fm : fmap K V) : nat :=
  match o with
  | TOp (MInsertMut k _) => insert_cost fm k
  | TOp (MRemoveMut q) => remove_cost fm q
  | TOp (MGetMut q _) => get_mut_cost fm q
  | TOp (MGet q) | TOp (MGetKeyValue q) | TOp (MContains q) => get_cost fm q
  | TSteps k => read_cost fm k
  | TCount _ => read_cost fm (length fm)
  | _ => 0
  end.

Lemma hh_direct_dear : forall o m fm G, hhrep m fm G -> ht_direct o = true ->
  dear (direct_cost o fm) (hh_step ubits dbg keq borrow qeq hash qhash fuel o m) G
    (fun r G' => snd r = snd (spec o fm) /\ hhrep (fst r) (fst (spec o fm)) G').
Proof.
  intros o m fm G R D.
  destruct o as [[k v|k v|q|q|q f|q|q|q| | |]|k|p]; try discriminate D;
    cbn [hh_step ht_call_spec map_spec fst snd direct_cost].
  - dseq (insert_cost fm k) 0 G (@nil own) (fun m' G' => hhrep m' (fm_insert keq k v fm) G'); [now apply hh_insert_mut_dear|].
    intros n' G' R'. apply dear_ret. rewrite app_nil_r. auto.
  - dseq (remove_cost fm q) 0 G (@nil own)
      (fun (x : hht * bool) G' => snd x = is_some (fm_find borrow qeq q fm) /\ hhrep (fst x) (fm_remove borrow qeq q fm) G');
      [now apply hh_remove_mut_dear|].
    intros [n' y] G' [Eb R']. cbn [fst snd] in *. subst y. apply dear_ret. rewrite app_nil_r. auto.
  - dseq (get_mut_cost fm q) 0 G (@nil own)
      (fun (x : hht * option V) G' => snd x = option_map snd (fm_find borrow qeq q fm) /\ hhrep (fst x) (fm_modify borrow qeq q f fm) G');
      [now apply hh_get_mut_dear|].
    intros [n' x] G' [Eb R']. cbn [fst snd] in *. subst x. apply dear_ret. rewrite app_nil_r. auto.
  - apply (hh_get_dear _ m fm); trivial. now apply dear_ret.
  - apply (hh_get_dear _ m fm); trivial. now apply dear_ret.
  - apply (hh_get_dear _ m fm); trivial. now apply dear_ret.
  - apply dear_ret. cbn [fst snd]. split; [|exact R]. destruct R as (w & (es & _ & _ & _ & _ & E & _) & Hz & _). congruence.
  - apply dear_ret. cbn [fst snd]. split; [|exact R]. destruct R as (w & (es & _ & _ & _ & _ & E & _) & Hz & _).
    rewrite Hz, E. now destruct fm.
  - destruct (hh_iter_reads ubits b Hb Hdeg Hub keq hash fuel Hfuel m fm G R) as (l & P & Hi & _).
    unfold read_cost. rewrite <- (Nat.add_0_r (_ + 1)). eapply looks_dear.
    + eapply looks_bind with (R := fun x => x = (m, THints (map (fun x => (fst x, is_some (snd x))) (fwd_spec k l)))); [apply Hi|].
      intros x ->. reflexivity.
    + intros x ->. cbn [fst snd]. split; [|exact R]. now rewrite fwd_hints, (Permutation_length P).
  - destruct (hh_iter_reads ubits b Hb Hdeg Hub keq hash fuel Hfuel m fm G R) as (l & P & _ & He).
    unfold read_cost. rewrite Nat.min_id, <- (Nat.add_0_r (_ + 1)). eapply looks_dear.
    + eapply looks_bind with (R := fun x => x = (m, TNum (length (filter p l)))); [apply He|]. intros x ->. reflexivity.
    + intros x ->. cbn [fst snd]. split; [|exact R]. now rewrite (Permutation_length (Permutation_filter _ p _ _ P)).
Qed.
End Credit.

(** With credit, a dropped map is paid for. *)
Notation cr := (W + 3).
Notation dear := (dear (@tkids K V) cr thin).

Lemma hh_drop_dear : forall m fm G n, hhrep m fm G -> 1 <= n -> dear n (hh_drop m) G (fun _ G' => G' = []).
Proof.
  intros m fm G n R L. eapply dear_le; [|exact L].
  eapply safe_pays; [now apply (hh_drop_ok ubits b Hb Hdeg Hub keq hash m fm)|]. apply tdrop_pays. exact HW.
Qed.

Definition full_cost (o : ht_call K V Q) (fm : fmap K V) : nat :=
  match o with
  | TOp (MInsert k _) => 2 + insert_cost cr fm k
  | TOp (MRemove q) => 4 + remove_cost cr fm q
  | TOp MClone => 2
  | _ => direct_cost cr o fm
  end.

Lemma hh_step_dear : forall o m fm G, hhrep m fm G ->
  dear (full_cost o fm) (hh_step ubits dbg keq borrow qeq hash qhash fuel o m) G
    (fun r G' => snd r = snd (spec o fm) /\ hhrep (fst r) (fst (spec o fm)) G').
Proof.
  intros o m fm G R. destruct (ht_direct o) eqn:D.
  { assert (E : full_cost o fm = direct_cost cr o fm) by (destruct o as [[]| |]; try discriminate D; reflexivity).
    rewrite E. now apply hh_direct_dear. }
  destruct o as [[k v|k v|q|q|q f|q|q|q| | |]|k|p]; try discriminate D;
    cbn [hh_step ht_call_spec map_spec fst snd full_cost].
  - unfold hh_insert. apply dear_assoc.
    dseq 1 (1 + insert_cost cr fm k) G (@nil own) (fun m' G' => exists G1 G2, G' = G1 ++ G2 /\ hhrep m fm G1 /\ hhrep m' fm G2);
      [now apply hh_clone_dear|].
    intros n G' (G1 & G2 & -> & R1 & R2).
    dseq (insert_cost cr fm k) 1 G2 G1 (fun m' G' => hhrep m' (fm_insert keq k v fm) G'); [now apply hh_insert_mut_dear|].
    intros n' G' R'.
    dseq 1 0 G1 G' (fun (_ : unit) (G : list own) => G = []); [now apply (hh_drop_dear m fm G1)|].
    intros [] G3 ->. apply dear_ret. auto.
  - unfold hh_remove. apply dear_assoc.
    dseq 1 (3 + remove_cost cr fm q) G (@nil own) (fun m' G' => exists G1 G2, G' = G1 ++ G2 /\ hhrep m fm G1 /\ hhrep m' fm G2);
      [now apply hh_clone_dear|].
    intros n G' (G1 & G2 & -> & R1 & R2). apply dear_assoc.
    dseq (remove_cost cr fm q) 3 G2 G1
      (fun (x : hht * bool) G' => snd x = is_some (fm_find borrow qeq q fm) /\ hhrep (fst x) (fm_remove borrow qeq q fm) G');
      [now apply hh_remove_mut_dear|].
    intros [n' y] G' [Eb R']. cbn [fst snd] in *. subst y.
    destruct (is_some (fm_find borrow qeq q fm)) eqn:E.
    + cbn [pbind]. dseq 1 0 G1 G' (fun (_ : unit) (G : list own) => G = []); [now apply (hh_drop_dear m fm G1)|].
      intros [] G3 ->. apply dear_ret. auto.
    + apply dear_assoc.
      dseq 1 2 G1 G' (fun m' G' => exists G1 G2, G' = G1 ++ G2 /\ hhrep m fm G1 /\ hhrep m' fm G2); [now apply hh_clone_dear|].
      intros c G3 (G4 & G5 & -> & R4 & R5). apply dear_assoc.
      dseq 1 1 G' (G4 ++ G5) (fun (_ : unit) (G : list own) => G = []); [now apply (hh_drop_dear n' _ G' 1 R')|].
      intros [] G6 ->. cbn [pbind].
      dseq 1 0 G4 G5 (fun (_ : unit) (G : list own) => G = []); [now apply (hh_drop_dear m fm G4)|].
      intros [] G7 ->. apply dear_ret.
      split; [reflexivity|]. cbn [fst app]. now rewrite (remove_absent borrow qeq q fm E).
  - dseq 1 1 G (@nil own) (fun m' G' => exists G1 G2, G' = G1 ++ G2 /\ hhrep m fm G1 /\ hhrep m' fm G2);
      [now apply hh_clone_dear|].
    intros c G' (G1 & G2 & -> & R1 & R2).
    dseq 1 0 G2 G1 (fun (_ : unit) (G : list own) => G = []); [now apply (hh_drop_dear c fm G2)|].
    intros [] G3 ->. apply dear_ret. auto.
Qed.
End M.
