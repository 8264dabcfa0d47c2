(** * [from_iter] of the maps on the shared heap when user code panics

    User code in [from_iter]: [Iterator::next], and in each [insert_mut] the comparisons and the
    hash of HeapCrashRB.v and HeapCrashHash.v.  The map being built is a local; unwinding drops it,
    with whatever an interrupted insertion has left in it. *)
From Coq Require Import List NArith Arith Lia Bool Permutation.
From Verif Require Import Base Spec Sim SpecMap SpecOrd RBModel RBHist RBExtra Prop_RB ListModel SparseModel HashModel HashProofs HashHist CrashModel
  PermSolve HeapModel HeapProofs HeapSafe HeapClient HeapList HeapRB HeapRBProofs HeapRBMap HeapCrashRB HeapCrashRBProofs HeapCrashRBMap
  HeapHash HeapHashNodes HeapHashMap HeapCrashHash HeapCrashHashProofs HeapCrashHashNodes HeapCrashHashMap HeapCrashSeq.
Import ListNotations.
Local Open Scope prog_scope.

(** ** RedBlackTreeMap *)
Section RB.
Context {K V Q : Type}.
Variable dbg : bool.
Variable kcmp : K -> K -> comparison.
Variable borrow : K -> Q.
Variable qcmp : Q -> Q -> comparison.
Notation C := (rcell K V).
Notation P := (prog C).

(** red_black_tree_map/mod.rs:1127-1129, the loop: [next] is called once more than there are
    entries. *)
Fixpoint xb_fill (n : nat) (m : hrb) (xs : list (K * V)) : P (crash hrb hrb) :=
  match n with
  | 0 => Ret (Unwound m)
  | S n =>
      match xs with
      | [] => Ret (Done n m)
      | (k, v) :: xs =>
          let* r := xb_insert_mut kcmp n m k v in
          match r with
          | Unwound m => Ret (Unwound m)
          | Done n m => xb_fill n m xs
          end
      end
  end.
(** red_black_tree_map/mod.rs:1124-1132 *)
Definition xb_from_iter (n : nat) (xs : list (K * V)) : P (crash unit hrb) :=
  let* m := hb_new in
  let* r := xb_fill n m xs in
  match r with
  | Unwound m => let* _ := hb_drop m in Ret (Unwound tt)
  | Done n m => Ret (Done n m)
  end.
(** The calls of HeapCrashRB.v and [m = iter.collect()]. *)
Definition xbi_step (no : nat * with_collect (map_op K V Q) (K * V)) (m : hrb) : P (hrb * option (map_obs K V)) :=
  let (n, o) := no in
  match o with
  | Call o => xb_step dbg kcmp borrow qcmp (n, o) m
  | Collect xs =>
      let* r := xb_from_iter n xs in
      match r with
      | Unwound _ => Ret (m, None)
      | Done _ m' => let* _ := hb_drop m in Ret (m', Some MoUnit)
      end
  end.

Hypothesis OL : ord_laws qcmp.
Hypothesis KB : borrow_agrees kcmp borrow qcmp.
Notation own := (@own C).
Notation safe := (safe (@rkids K V)).
Notation hbrep := (hbrep kcmp).
Notation fill := (fold_left (fun (fm : fmap K V) (e : K * V) => fm_insert (eq_of kcmp) (fst e) (snd e) fm)).

Lemma insert_length : forall (keq : K -> K -> bool) k v (fm : fmap K V), length (fm_insert keq k v fm) <= S (length fm).
Proof using.
  clear OL KB. intros keq k v fm. unfold fm_insert. cbn [length]. apply le_n_S.
  induction fm as [|e fm IH]; [apply le_n|]. cbn [filter]. destruct (negb _); cbn [length]; lia.
Qed.
Lemma fill_length : forall (keq : K -> K -> bool) xs (fm : fmap K V),
  length (fold_left (fun (fm : fmap K V) (e : K * V) => fm_insert keq (fst e) (snd e) fm) xs fm) <= length xs + length fm.
Proof using.
  clear OL KB. intros keq. induction xs as [|e xs IH]; intros fm; cbn [fold_left length]; [lia|].
  specialize (IH (fm_insert keq (fst e) (snd e) fm)). pose proof (insert_length keq (fst e) (snd e) fm). lia.
Qed.

Lemma xb_fill_ok : forall xs L n m fm G, rb_levels (length fm + length xs) <= L -> hbrep m fm G ->
  safe (length xs * (3 * L + 2)) (xb_fill n m xs) G
    (fun r G' => match r with
                 | Done _ m' => length xs < n /\ hbrep m' (fill xs fm) G'
                 | Unwound m' => n <= length xs * (L + 1) /\ exists fm', hbrep m' fm' G'
                 end).
Proof.
  induction xs as [|[k v] xs IH]; intros L n m fm G HL R; (destruct n as [|n]; cbn [xb_fill length];
    [apply safe_ret; split; [lia|eauto]|]).
  - apply safe_ret. split; [lia|exact R].
  - cbn [length] in HL. pose proof (rb_levels_mono (length fm) (length fm + S (length xs)) ltac:(lia)) as HL1.
    eapply (safe_seq _ _ _ (3 * rb_levels (length fm) + 2) (length xs * (3 * L + 2)) _ _ G []);
      [apply (xb_insert_mut_ok kcmp borrow qcmp OL KB n m fm G k v R)|perm| |lia].
    intros [c m'|m'] G' H; rewrite app_nil_r.
    + destruct H as (Hc & R').
      eapply safe_mono; [apply le_n| |apply (IH L c m' (fm_insert (eq_of kcmp) k v fm) G'); [|exact R']].
      * intros [c' m2|m2] G2 (H1 & H2); cbn [fold_left fst snd]; (split; [|exact H2]); lia.
      * etransitivity; [apply rb_levels_mono|exact HL]. pose proof (insert_length (eq_of kcmp) k v fm). lia.
    + destruct H as (Hn & R'). apply safe_ret. split; [|eauto]. lia.
Qed.

(** What such a call may do to a finite map. *)
Definition rbi_after (no : nat * with_collect (map_op K V Q) (K * V)) (fm fm' : fmap K V) (x : option (map_obs K V)) : Prop :=
  let (n, o) := no in
  match o with
  | Call o => rb_after kcmp borrow qcmp (n, o) fm fm' x
  | Collect xs =>
      match x with
      | Some y => fm' = fill xs [] /\ y = MoUnit /\ length xs < n
      | None => fm' = fm /\ n <= length xs * (rb_levels (length xs) + 1)
      end
  end.
Definition rbi_cost (no : nat * with_collect (map_op K V Q) (K * V)) (size : nat) : nat :=
  match snd no with
  | Call o => rb_xcost (fst no, o) size
  | Collect xs => length xs * (3 * rb_levels (length xs) + 2)
  end.
Definition rbi_grow (no : nat * with_collect (map_op K V Q) (K * V)) : nat :=
  match snd no with Call _ => 1 | Collect xs => length xs end.

Theorem xbi_step_ok : forall o m fm G, hbrep m fm G ->
  safe (rbi_cost o (length fm)) (xbi_step o m) G (fun r G' => exists fm', rbi_after o fm fm' (snd r) /\ hbrep (fst r) fm' G').
Proof.
  intros [n [o|xs]] m fm G R; cbn [xbi_step rbi_after]; unfold rbi_cost; cbn [fst snd].
  - apply (xb_step_ok dbg kcmp borrow qcmp OL KB (n, o) m fm G R).
  - unfold xb_from_iter. set (L := rb_levels (length xs)).
    eapply (safe_seq _ _ _ (length xs * (3 * L + 2)) 0 _ _ [] G
      (fun r G' => match r with
                   | Unwound _ => n <= length xs * (L + 1) /\ G' = []
                   | Done _ m' => length xs < n /\ hbrep m' (fill xs []) G'
                   end)); [|perm| |lia].
    + eapply (safe_seq _ _ _ 0 (length xs * (3 * L + 2)) _ _ [] []); [apply (hb_new_ok kcmp)|perm| |lia].
      intros w G' Rw. rewrite app_nil_r.
      eapply (safe_seq _ _ _ (length xs * (3 * L + 2)) 0 _ _ G' []); [apply (xb_fill_ok xs L n w [] G' (le_n _) Rw)|perm| |lia].
      intros [c w'|w'] G2 (Hn & R2); rewrite app_nil_r.
      * apply safe_ret. auto.
      * destruct R2 as (fm' & R2).
        eapply (safe_seq _ _ _ 0 0 _ _ G2 []); [apply (hb_drop_ok kcmp w' _ G2 R2)|perm| |lia].
        intros [] G3 ->. apply safe_ret. auto.
    + intros [c w|[]] G' (Hn & H).
      * eapply (safe_seq _ _ _ 0 0 _ _ G G'); [apply (hb_drop_ok kcmp m fm G R)|perm| |lia].
        intros [] G3 ->. apply safe_ret. exists (fill xs []). cbn [fst snd app]. auto.
      * subst G'. apply safe_ret. exists fm. cbn [fst snd app]. auto.
Qed.

Lemma rbi_after_size : forall o fm fm' x, rbi_after o fm fm' x -> length fm' <= rbi_grow o + length fm.
Proof using.
  clear OL KB. intros [n [o|xs]] fm fm' x H; cbn [rbi_after rbi_grow snd] in *.
  - apply (rb_after_size kcmp borrow qcmp _ _ _ _ H).
  - unfold rbi_grow. cbn [snd]. destruct x as [y|]; destruct H as (-> & H); [|lia]. pose proof (fill_length (eq_of kcmp) xs []).
    cbn [length] in *. lia.
Qed.
Lemma rbi_cost_mono : forall o n m, n <= m -> rbi_cost o n <= rbi_cost o m.
Proof using. clear OL KB. intros [c [o|xs]] n m H; unfold rbi_cost; cbn [fst snd]; [now apply rb_xcost_mono|lia]. Qed.
End RB.

(** ** HashTrieMap *)
Section Hash.
Variable ubits : N.
Variable dbg : bool.
Context {K V Q : Type}.
Variable keq : K -> K -> bool.
Variable borrow : K -> Q.
Variable qeq : Q -> Q -> bool.
Variable hash : K -> N.
Variable qhash : Q -> N.
Variable fuel : nat.
Notation C := (tcell K V).
Notation P := (prog C).

(** hash_trie_map/mod.rs:1029-1031, the loop *)
Fixpoint xh_fill (n : nat) (m : hht) (xs : list (K * V)) : P (crash (hht * bool) hht) :=
  match n with
  | 0 => Ret (Unwound (m, false))
  | S n =>
      match xs with
      | [] => Ret (Done n m)
      | (k, v) :: xs =>
          let* r := xh_insert_mut ubits dbg keq hash fuel n m k v in
          match r with
          | Unwound m => Ret (Unwound m)
          | Done n m => xh_fill n m xs
          end
      end
  end.
(** hash_trie_map/mod.rs:1026-1034.  [new_with_hasher_and_ptr_kind] takes DEFAULT_DEGREE, the
    width of usize (mod.rs:31, 742-745).  The hasher is [H::default()]: the model has one hash
    function, that is, a hasher type the default of which is always the same. *)
Definition xh_from_iter (n : nat) (xs : list (K * V)) : P (crash unit hht) :=
  let* m := @xh_new ubits K V ubits in
  let* r := xh_fill n (fst m) xs in
  match r with
  | Unwound m => let* _ := xh_drop m in Ret (Unwound tt)
  | Done n m => Ret (Done n m)
  end.
(** The calls of HeapCrashHash.v and [m = iter.collect()], also for an [m] that has lost entries. *)
Definition xhi_step (no : nat * with_collect (map_op K V Q) (K * V)) (m : hht * bool) : P (hht * bool * option (map_obs K V)) :=
  let (n, o) := no in
  match o with
  | Call o => xh_step ubits dbg keq borrow qeq hash qhash fuel (n, o) m
  | Collect xs =>
      let* r := xh_from_iter n xs in
      match r with
      | Unwound _ => Ret (m, None)
      | Done _ m' => let* _ := xh_drop m in Ret ((m', false), Some MoUnit)
      end
  end.

Variable b : N.
Hypothesis Hb : (0 < b)%N.
Hypothesis Hdeg : (2 ^ b <= ubits)%N.
Hypothesis Hub : (ubits <= 64)%N.
Hypothesis KL : key_laws keq borrow qeq.
Hypothesis HL : hash_laws borrow qeq hash qhash.
Hypothesis Hfuel : 2 * D b < fuel.
Notation own := (@own C).
Notation safe := (safe (@tkids K V)).
Notation xhrep := (xhrep ubits b keq hash).
Notation fill := (fold_left (fun (fm : fmap K V) (e : K * V) => fm_insert keq (fst e) (snd e) fm)).

Lemma xh_fill_ok : forall xs s n m fm G, length fm + length xs <= s -> xhrep (m, false) (Sound fm) G ->
  safe (length xs * (2 * D b + 2 * s + 6)) (xh_fill n m xs) G
    (fun r G' => match r with
                 | Done _ m' => length xs < n /\ xhrep (m', false) (Sound (fill xs fm)) G'
                 | Unwound m' => n <= length xs * (D b + 2 * s + 4) /\ exists v', xhrep m' v' G'
                 end).
Proof.
  induction xs as [|[k v] xs IH]; intros s n m fm G Hs R; (destruct n as [|n]; cbn [xh_fill length];
    [apply safe_ret; split; [lia|eauto]|]).
  - apply safe_ret. split; [lia|exact R].
  - cbn [length] in Hs. pose proof (clash_le hash (hash k) fm) as Cl.
    assert (R' := R). destruct R' as (w & Pt & _ & Rw).
    eapply (safe_seq _ _ _ (2 * D b + 2 * clash hash (hash k) fm + 6) (length xs * (2 * D b + 2 * s + 6)) _ _ G []);
      [apply (xh_insert_mut_ok ubits dbg b Hb Hdeg Hub keq borrow qeq hash qhash KL HL fuel Hfuel n m fm G k v); exists w; auto|perm| |nia].
    intros [c m'|m'] G' H; rewrite app_nil_r.
    + destruct H as (Hc & R').
      eapply safe_mono; [apply le_n| |apply (IH s c m' (fm_insert keq k v fm) G')].
      * intros [c' m2|m2] G2 (H1 & H2); cbn [fold_left fst snd]; (split; [|exact H2]); nia.
      * pose proof (insert_length keq k v fm). lia.
      * now apply srep_xh.
    + destruct H as (Hn & v' & R' & _). apply safe_ret. split; [|eauto]. nia.
Qed.

(** What such a call may do. *)
Definition hti_after (no : nat * with_collect (map_op K V Q) (K * V)) (v v' : hval K V) (x : option (map_obs K V)) : Prop :=
  let (n, o) := no in
  match o with
  | Call o => ht_after keq borrow qeq hash qhash (D b) (n, o) v v' x
  | Collect xs =>
      match x with
      | Some y => v' = Sound (fill xs []) /\ y = MoUnit /\ length xs < n
      | None => v' = v /\ n <= length xs * (D b + 2 * length xs + 4)
      end
  end.
Definition hti_cost (no : nat * with_collect (map_op K V Q) (K * V)) (size : nat) : nat :=
  match snd no with
  | Call o => ht_xcost b (fst no, o) size
  | Collect xs => 1 + length xs * (2 * D b + 2 * length xs + 6)
  end.
Definition hti_allowed (no : nat * with_collect (map_op K V Q) (K * V)) (v : hval K V) : Prop :=
  match snd no with Call _ => True | Collect _ => ubits = (2 ^ b)%N end.

Theorem xhi_step_ok : forall o m v G, hti_allowed o v -> xhrep m v G ->
  safe (hti_cost o (hval_size v)) (xhi_step o m) G (fun r G' => exists v', hti_after o v v' (snd r) /\ xhrep (fst r) v' G').
Proof.
  intros [n [o|xs]] m v G A R; cbn [xhi_step hti_after]; unfold hti_cost; cbn [fst snd].
  - apply (xh_step_ok ubits dbg b Hb Hdeg Hub keq borrow qeq hash qhash KL HL fuel Hfuel (n, o) m v G R).
  - unfold hti_allowed in A. cbn [snd] in A. unfold xh_from_iter. rewrite A at 2. set (s := length xs).
    eapply (safe_seq _ _ _ (1 + s * (2 * D b + 2 * s + 6)) 0 _ _ [] G
      (fun r G' => match r with
                   | Unwound _ => n <= s * (D b + 2 * s + 4) /\ G' = []
                   | Done _ m' => s < n /\ xhrep (m', false) (Sound (fill xs [])) G'
                   end)); [|perm| |lia].
    + eapply (safe_seq _ _ _ 1 (s * (2 * D b + 2 * s + 6)) _ _ [] []);
        [apply (xh_new_ok ubits dbg b Hb Hdeg Hub keq borrow qeq hash qhash KL HL fuel Hfuel)|perm| |lia].
      intros [w fl] G' Rw. rewrite app_nil_r. assert (fl = false) by (destruct Rw as (? & _ & E & _); exact E). subst fl. cbn [fst].
      eapply (safe_seq _ _ _ (s * (2 * D b + 2 * s + 6)) 0 _ _ G' []); [apply (xh_fill_ok xs s n w [] G' (le_n _) Rw)|perm| |lia].
      intros [c w'|w'] G2 (Hn & R2); rewrite app_nil_r.
      * apply safe_ret. auto.
      * destruct R2 as (v' & R2).
        eapply (safe_seq _ _ _ 0 0 _ _ G2 []); [apply (xh_drop_ok ubits b Hb Hdeg Hub keq hash w' v' G2 R2)|perm| |lia].
        intros [] G3 ->. apply safe_ret. auto.
    + intros [c w|[]] G' (Hn & H).
      * eapply (safe_seq _ _ _ 0 0 _ _ G G'); [apply (xh_drop_ok ubits b Hb Hdeg Hub keq hash m v G R)|perm| |lia].
        intros [] G3 ->. apply safe_ret. exists (Sound (fill xs [])). cbn [fst snd app]. auto.
      * subst G'. apply safe_ret. exists v. cbn [fst snd app]. auto.
Qed.

Lemma hti_after_size : forall o v v' x, hti_after o v v' x -> hval_size v' <= rbi_grow o + hval_size v.
Proof using.
  clear Hb Hdeg Hub KL HL Hfuel. intros [n [o|xs]] v v' x H; cbn [hti_after] in H; unfold rbi_grow; cbn [snd].
  - apply (ht_after_size keq borrow qeq hash qhash _ _ _ _ _ H).
  - destruct x as [y|]; destruct H as (-> & H); [|lia]. pose proof (fill_length keq xs []). cbn [length hval_size] in *. lia.
Qed.
Lemma hti_cost_mono : forall o n m, n <= m -> hti_cost o n <= hti_cost o m.
Proof using.
  clear Hb Hdeg Hub KL HL Hfuel. intros [c [o|xs]] n m H; unfold hti_cost; cbn [fst snd]; [now apply ht_xcost_mono|lia].
Qed.
End Hash.
