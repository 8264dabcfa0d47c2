(** * Property C58: damaged HashTrieMaps on the shared heap

    As C54, but a version that has lost entries to a caught panic can be changed, cloned and dropped
    like any other, and its calls can panic again.  The programs are those of HeapCrashHash.v with the
    client of HeapAfterModel.v; the property is [unwinding_contained] of HeapCrash.v. *)
From Coq Require Import List NArith Arith Lia Bool Permutation.
From Verif Require Import Base Spec Sim SpecMap SpecOrd ListModel SparseModel HashModel HashProofs HashHist HashExtraProofs Prop_Hash HashIter
  CrashModel CrashProofs Prop_Crash CrashAfterModel CrashAfter CrashAfterCalls Prop_CrashAfter
  HeapModel HeapProofs HeapSafe HeapClient HeapWorld HeapList HeapHash HeapHashMap Prop_HeapHash
  HeapCrash HeapCrashHash HeapCrashHashMap Prop_HeapCrashHash HeapAfterList HeapAfterNodes HeapAfterModel HeapAfterMap.
Import ListNotations.

(** ** What a call may do to a version that has the entries [fm] and has lost the entries [lost], if
    its [n]-th call of user code panics.  It completes: the answer is right for [fm], except that the
    size counts [lost] as well.  Or it unwinds: entries may be lost that [may_lose] (Prop_CrashAfter.v)
    allows.  Then either user code panicked, and [n] is bounded; or it is a removal of a key with
    the hash of a lost entry, and no other entry with that hash is left. *)
Definition damaged_after {K V Q} (keq : K -> K -> bool) (borrow : K -> Q) (qeq : Q -> Q -> bool) (hash : K -> N) (qhash : Q -> N)
  (levels : nat) (no : nat * map_op K V Q) (v v' : fmap K V * list (K * V)) (x : option (map_obs K V)) : Prop :=
  let '(n, o) := no in
  let '(fm, lost) := v in
  match x with
  | Some y => y = answer_after keq borrow qeq o fm (length lost) /\ v' = (fst (map_spec keq borrow qeq o fm), lost)
  | None => exists fm' gone, v' = (fm', gone ++ lost) /\ Permutation (fm' ++ gone) fm /\
      (forall e, In e gone -> may_lose hash qhash o fm lost e) /\
      (call_hash hash qhash o <> None /\ n < levels + 2 * length fm + 5 \/
       exists q, 1 <= entries_with hash (qhash q) lost /\ entries_with hash (qhash q) (fm_remove borrow qeq q fm) = 0 /\
         (o = MRemove q \/ o = MRemoveMut q /\ fm' = fm_remove borrow qeq q fm))
  end.

Lemma damaged_after_size : forall K V Q keq (borrow : K -> Q) qeq hash qhash levels o (v v' : fmap K V * list (K * V)) x,
  damaged_after keq borrow qeq hash qhash levels o v v' x -> length (fst v') <= S (length (fst v)).
Proof.
  intros K V Q keq borrow qeq hash qhash levels [n o] [fm lost] v' [y|] H; cbn [damaged_after] in H.
  - destruct H as (_ & ->).
    assert (Fl : forall (f : K * V -> bool) (fm : fmap K V), length (filter f fm) <= length fm).
    { intros f l. induction l as [|e l IH]; [apply le_n|]. cbn [filter]. destruct (f e); cbn [length]; lia. }
    destruct o; cbn [map_spec fst]; unfold fm_insert, fm_remove, fm_modify; cbn [length];
      rewrite ?map_length; try lia; try (specialize (Fl (fun kv => negb (keq (fst kv) k)) fm); lia);
      match goal with q : Q |- _ => specialize (Fl (fun kv => negb (qeq (borrow (fst kv)) q)) fm) end; lia.
  - destruct H as (fm' & gone & -> & Hp & _). apply Permutation_length in Hp. rewrite app_length in Hp. cbn [fst]. lia.
Qed.

Section Step.
Context {K V Q : Type} (ubits : N) (dbg : bool) (b : N) (Hb : (0 < b)%N) (Hd : (2 ^ b <= ubits)%N) (Hub : (ubits <= 64)%N)
  (keq : K -> K -> bool) (borrow : K -> Q) (qeq : Q -> Q -> bool) (hash : K -> N) (qhash : Q -> N)
  (KL : key_laws keq borrow qeq) (HL : hash_laws borrow qeq hash qhash) (fuel : nat) (Hf : 2 * D b < fuel).
Notation dm := (@dm_rep ubits b K V keq hash).

Lemma step_after : forall n sh o (w : hmap K V) fm lost oc, dm w fm lost ->
  a_hm_step ubits dbg keq borrow qeq hash qhash fuel n sh o w = Ok oc ->
  exists v', damaged_after keq borrow qeq hash qhash (D b) (n, o) (fm, lost) v'
    (match oc with Done _ (_, a) => Some a | Unwound _ => None end) /\
    dm (match oc with Done _ (w', _) => w' | Unwound w' => w' end) (fst v') (snd v').
Proof.
  intros n sh o w fm lost oc Hm E. destruct oc as [left [w' a]|w']; cbn [damaged_after].
  - destruct (done_post ubits dbg b Hb Hd Hub keq borrow qeq hash qhash KL HL fuel Hf _ _ _ _ _ _ _ _ _ Hm E) as (-> & Hm').
    exists (fst (map_spec keq borrow qeq o fm), lost). auto.
  - destruct (Nat.lt_ge_cases n (D b + 2 * length fm + 5)) as [L|L].
    + destruct (unwound_post ubits dbg b Hb Hd Hub keq borrow qeq hash qhash KL HL fuel Hf _ _ _ _ _ _ _ Hm E) as (fm' & gone & Hm' & Hp & Hg).
      exists (fm', gone ++ lost). split; [|exact Hm']. exists fm', gone. split; [reflexivity|]. split; [exact Hp|]. split; [exact Hg|].
      left. split; [|exact L]. destruct o; try discriminate; discriminate E.
    + pose proof (a_step_ok ubits dbg b Hb Hd Hub keq borrow qeq hash qhash KL HL fuel Hf sh o w fm lost Hm) as A.
      pose proof (quiet_step ubits dbg b Hb Hd Hub keq borrow qeq hash qhash fuel sh o w fm lost Hm) as Qt.
      destruct (cends_quiet _ _ _ _ _ _ _ A Qt n w' L E) as (q & w1 & (Hhit & Hsame & Hm1) & Ho).
      assert (H1 : 1 <= entries_with hash (qhash q) lost).
      { destruct Hhit as (y & Hy & <-). exact (crowd_in K V hash lost y Hy). }
      assert (H2 : entries_with hash (qhash q) (fm_remove borrow qeq q fm) = 0).
      { unfold entries_with, fm_remove.
        destruct (filter (fun x => (hash (fst x) =? qhash q)%N) _) as [|y l] eqn:Ef; [reflexivity|exfalso].
        assert (Hy : In y (y :: l)) by now left. rewrite <- Ef in Hy. apply filter_In in Hy as (Hy & Ey).
        apply filter_In in Hy as (Hy & En). apply N.eqb_eq in Ey. apply Hsame in Ey; [|exact Hy]. unfold is_key in Ey.
        rewrite Ey in En. discriminate. }
      destruct Ho as [(-> & ->)|(-> & ->)].
      * exists (fm, lost). split; [|exact Hm]. exists fm, []. rewrite app_nil_r. split; [reflexivity|]. split; [reflexivity|].
        split; [intros e []|]. right. exists q. auto.
      * exists (fm_remove borrow qeq q fm, filter (is_key borrow qeq q) fm ++ lost). split; [|exact Hm1].
        exists (fm_remove borrow qeq q fm), (filter (is_key borrow qeq q) fm). split; [reflexivity|]. split; [|split].
        -- clear. unfold fm_remove, is_key. induction fm as [|x fm IH]; [reflexivity|]. cbn [filter].
           destruct (qeq (borrow (fst x)) q); cbn [negb app]; [|now constructor].
           rewrite <- Permutation_middle. now constructor.
        -- intros x Hx. apply filter_In in Hx as (Hx & Ek). unfold is_key in Ek.
           assert (Eh : hash (fst x) = qhash q) by (rewrite (hl_borrow _ _ _ _ HL); now apply (hl_eq _ _ _ _ HL)).
           split; [cbn [Prop_Crash.in_place]; now rewrite Eh|]. change (2 <= crowd hash (hash (fst x)) (fm ++ lost)). rewrite crowd_app.
           destruct Hhit as (y & Hy & Ey). pose proof (crowd_in K V hash lost y Hy). pose proof (crowd_in K V hash fm x Hx).
           rewrite Eh, <- Ey in *. lia.
        -- right. exists q. auto.
Qed.
End Step.

(** Whatever user calls unwind, on whatever versions, as often as it happens: every call on every
    version does what [damaged_after] says for that version, no other version is touched, the
    counts of all cells are right throughout, and dropping all versions frees all cells. *)
Theorem C58_damaged_hash_map_heap : forall (K V Q : Type) (ubits : N) (dbg : bool)
  (keq : K -> K -> bool) (borrow : K -> Q) (qeq : Q -> Q -> bool) (hash : K -> N) (qhash : Q -> N),
  (ubits <= 64)%N -> key_laws keq borrow qeq -> hash_laws borrow qeq hash qhash ->
  forall (degree : N) (fuel : nat), supported ubits degree -> 2 * digits degree < fuel ->
  unwinding_contained tkids (@hh_new ubits K V degree) hh_clone hh_drop
    (yh_step ubits dbg keq borrow qeq hash qhash fuel) hh_roots
    (@nil (K * V), @nil (K * V)) (damaged_after keq borrow qeq hash qhash (digits degree)).
Proof.
  intros K V Q ubits dbg keq borrow qeq hash qhash Hub KL HL degree fuel (b & Hb & -> & Hd) Hf.
  rewrite digits_D in *.
  eapply (unwinding_contained_ok tkids _ _ _ _ _
    (fun m v G => exists w, dparts b m w G /\ dm_rep ubits b keq hash w (fst v) (snd v)) _ _ (fun v => length (fst v)) 1 (ycost b)).
  - now apply (y_new_ok ubits dbg b Hb Hd Hub keq borrow qeq hash qhash KL HL fuel Hf).
  - intros m v G (w & Pt & Hm). eapply safe_mono; [apply le_n| |apply (dparts_clone b m w G Pt)].
    intros m' G' (G1 & G2 & -> & R1 & R2). exists G1, G2. eauto 8.
  - intros m v G (w & Pt & Hm). eapply dparts_drop; eauto.
  - intros [n o] m [fm lost] G (w & Pt & Hm). cbn [fst snd] in Hm.
    eapply safe_mono; [apply le_n| |apply (y_step_sim ubits dbg b Hb Hd Hub keq borrow qeq hash qhash KL HL fuel Hf n o m w fm lost G Pt Hm)].
    cbv beta. intros [m' x] G' (sh & oc & E & H).
    destruct (step_after ubits dbg b Hb Hd Hub keq borrow qeq hash qhash KL HL fuel Hf n sh o w fm lost oc Hm E) as (v' & Ha & Hm').
    exists v'. destruct oc as [left [w' a]|w']; cbn [step_end fst snd] in *; destruct H as (-> & Pt'); eauto.
  - apply damaged_after_size.
  - apply ycost_mono.
  - intros m v G (w & (_ & _ & _ & t & _ & E & ->) & _). exists [t]. split; [reflexivity|].
    unfold hh_roots. cbn [map]. now rewrite E.
Qed.
Print Assumptions C58_damaged_hash_map_heap.

(** Keys 0, 2 and 4 collide (the hypotheses hold: [hash_crash_hypotheses]).  The insertion of 6 in place
    unwinds; version 0 is left with 0 and 1 and size 4, its clone, version 1, has all.  Version 0 is
    cloned.  The removal of 0 finds no other entry with its hash and panics by itself: 0 is lost too,
    the size stays 4.  2 is inserted again and found; a lookup that panics changes nothing; 8 is inserted
    and removed.  The removal of 0 from the clone of the damaged version (2), which works on a clone of
    its own, panics as well but changes nothing. *)
Notation yh_ex := (yh_step 64 true N.eqb (fun k : N => k) N.eqb (fun k => k mod 2)%N (fun k => k mod 2)%N 65).
Definition damaged_example : list (cmd (nat * hop)) :=
  CNew :: map (fun k => COp 0 (all (MInsertMut k (10 * N.to_nat k)))) [0; 2; 4; 1]%N ++
  [CClone 0; COp 0 (5, MInsertMut 6%N 60); COp 0 (all (MGet 0%N)); COp 0 (all (MGet 2%N)); COp 0 (all (MGet 4%N)); COp 0 (all MSize);
   CClone 0; COp 0 (all (MRemoveMut 0%N)); COp 0 (all (MGet 0%N)); COp 0 (all MSize);
   COp 0 (all (MInsertMut 2%N 21)); COp 0 (all (MGet 2%N)); COp 0 (1, MGet 2%N); COp 0 (all MSize);
   COp 0 (all (MInsertMut 8%N 80)); COp 0 (all (MRemoveMut 8%N)); COp 0 (all (MGet 2%N)); COp 0 (all (MGet 1%N)); COp 0 (all MSize);
   COp 2 (all (MRemove 0%N)); COp 2 (all (MGet 0%N)); COp 2 (all MSize); COp 2 (all (MGetMut 0%N S)); COp 2 (all (MGet 0%N));
   COp 1 (all (MGet 0%N)); COp 1 (all (MGet 2%N)); COp 1 (all (MGet 4%N)); COp 1 (all MSize)].

Example damaged_example_runs :
  match run [] (hclient (@hh_new 64 N nat 4) hh_clone hh_drop yh_ex (damaged_example ++ [CDrop 0; CDrop 1; CDrop 2]) []) with
  | Some (h, (_, out)) => (skipn 4 out, forallb (fun x => match x with None => true | Some _ => false end) h)
  | None => ([], false)
  end =
  ([None; Some (MoVal (Some 0)); Some (MoVal None); Some (MoVal None); Some (MoNat 4);
    None; Some (MoVal None); Some (MoNat 4);
    Some MoUnit; Some (MoVal (Some 21)); None; Some (MoNat 5);
    Some MoUnit; Some (MoBool true); Some (MoVal (Some 21)); Some (MoVal (Some 10)); Some (MoNat 5);
    None; Some (MoVal (Some 0)); Some (MoNat 4); Some (MoVal (Some 0)); Some (MoVal (Some 1));
    Some (MoVal (Some 0)); Some (MoVal (Some 20)); Some (MoVal (Some 40)); Some (MoNat 4)], true).
Proof. vm_compute. reflexivity. Qed.
