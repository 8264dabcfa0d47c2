(** * Property C56: caught panics of user code in [from_iter] of the maps

    The programs are those of HeapCrashIter.v: all calls of C54, and [m = iter.collect()], in which
    user code is [Iterator::next] and what the insertions run.  The property is
    [unwinding_contained_within] of HeapCrash.v. *)
From Coq Require Import List NArith Arith Lia Bool Permutation.
From Verif Require Import Base Spec Sim SpecMap SpecOrd RBModel RBHist Prop_RB ListModel SparseModel HashModel HashProofs HashHist Prop_Hash CrashModel
  HeapModel HeapProofs HeapSafe HeapClient HeapWorld HeapList HeapRB HeapRBProofs HeapRBMap Prop_HeapRB
  HeapHash HeapHashNodes HeapHashMap Prop_HeapHash HeapCrash HeapCrashRB HeapCrashRBProofs HeapCrashRBMap
  HeapCrashHash HeapCrashHashProofs HeapCrashHashNodes HeapCrashHashMap Prop_HeapCrashHash HeapCrashSeq HeapCrashIter.
Import ListNotations.

(** What a map made of a sequence of entries is: they go in one after the other. *)
Definition collected {K V} (keq : K -> K -> bool) (xs : list (K * V)) : fmap K V :=
  fold_left (fun fm e => fm_insert keq (fst e) (snd e) fm) xs [].

(** ** RedBlackTreeMap *)
(** [collect] completes only if [next] has been called once for each entry and once for the end,
    and leaves what it should; if it unwinds, the variable has the value it had, and it can only
    unwind within one [next] and one comparison per level for each entry, and the last [next]. *)
Theorem C56_rb_map_unwinding : forall (K V Q : Type) (dbg : bool)
  (kcmp : K -> K -> comparison) (borrow : K -> Q) (qcmp : Q -> Q -> comparison),
  ord_laws qcmp -> borrow_agrees kcmp borrow qcmp ->
  unwinding_contained_within rkids (@hb_new K V) hb_clone hb_drop (xbi_step dbg kcmp borrow qcmp) hb_roots
    (@nil (K * V))
    (fun '(n, o) fm fm' x =>
       match o, x with
       | Call o, Some y => (fm', y) = map_spec (eq_of kcmp) borrow (eq_of qcmp) o fm
       | Call _, None => fm' = fm /\ n < 2 * Nat.log2 (length fm + 1) + 2
       | Collect xs, Some y => fm' = collected (eq_of kcmp) xs /\ y = MoUnit /\ length xs < n
       | Collect xs, None => fm' = fm /\ n <= length xs * (2 * Nat.log2 (length xs + 1) + 1)
       end)
    (fun _ _ => True).
Proof.
  intros K V Q dbg kcmp borrow qcmp OL KB.
  eapply (unwinding_contained_within_ok rkids _ _ _ _ _ (hbrep kcmp) _ _ (@length (K * V)) 0 rbi_grow rbi_cost).
  - apply hb_new_ok.
  - apply hb_clone_ok.
  - apply hb_drop_ok.
  - intros [n o] m fm G _ R. eapply safe_mono; [apply le_n| |apply (xbi_step_ok dbg kcmp borrow qcmp OL KB (n, o) m fm G R)].
    intros r G' (fm' & H & R'). exists fm'. split; [|exact R'].
    destruct o as [o|xs], (snd r) as [y|]; exact H.
  - intros [n o] fm fm' x H. apply (rbi_after_size kcmp borrow qcmp (n, o) fm fm' x). destruct o as [o|xs], x as [y|]; exact H.
  - apply rbi_cost_mono.
  - apply hb_rep_roots.
Qed.
Print Assumptions C56_rb_map_unwinding.

(** Three entries and a clone; [collect] is interrupted in a comparison of its third insertion,
    then in the last [next]; the map it would have replaced stays.  Then it completes, the second
    entry for a key replacing the first.  Dropping everything leaves no cell. *)
Example rb_collect_example :
  match run [] (hclient hb_new hb_clone hb_drop (xbi_step true Nat.compare (fun k : nat => k) Nat.compare)
                  [CNew; COp 0 (60, Collect [(1, 10); (2, 20); (3, 30)]); CClone 0;
                   COp 0 (5, Collect [(5, 50); (6, 60); (7, 70); (5, 51)]); COp 0 (60, Call (MGet 2));
                   COp 0 (8, Collect [(5, 50); (6, 60); (7, 70); (5, 51)]); COp 0 (60, Call MSize);
                   COp 0 (10, Collect [(5, 50); (6, 60); (7, 70); (5, 51)]); COp 0 (60, Call (MGet 5)); COp 0 (60, Call (MGet 2));
                   COp 0 (60, Call MSize); COp 1 (60, Call (MGet 2)); CDrop 0; CDrop 1] []) with
  | Some (h, (_, out)) => (out, forallb (fun x => match x with None => true | Some _ => false end) h)
  | None => ([], false)
  end =
  ([Some MoUnit; None; Some (MoVal (Some 20)); None; Some (MoNat 3); Some MoUnit; Some (MoVal (Some 51)); Some (MoVal None);
    Some (MoNat 3); Some (MoVal (Some 20))], true).
Proof. vm_compute. reflexivity. Qed.

(** ** HashTrieMap *)
(** The map that [collect] works on is lost when a call unwinds, whatever has become of it: an
    interrupted [collect] never leaves a spoiled map behind, and one that completes replaces a
    spoiled map by a sound one.  The result has DEFAULT_DEGREE, so the claim is for clients all the
    maps of which have that. *)
Theorem C56_hash_map_unwinding : forall (K V Q : Type) (ubits : N) (dbg : bool)
  (keq : K -> K -> bool) (borrow : K -> Q) (qeq : Q -> Q -> bool) (hash : K -> N) (qhash : Q -> N),
  (ubits <= 64)%N -> key_laws keq borrow qeq -> hash_laws borrow qeq hash qhash ->
  forall fuel : nat, supported ubits ubits -> 2 * digits ubits < fuel ->
  unwinding_contained_within tkids (@xh_new ubits K V ubits) xh_clone xh_drop
    (xhi_step ubits dbg keq borrow qeq hash qhash fuel) (fun m => hh_roots (fst m))
    (Sound (@nil (K * V)))
    (fun '(n, o) v v' x =>
       match o, x with
       | Call o, x => ht_after keq borrow qeq hash qhash (digits ubits) (n, o) v v' x
       | Collect xs, Some y => v' = Sound (collected keq xs) /\ y = MoUnit /\ length xs < n
       | Collect xs, None => v' = v /\ n <= length xs * (digits ubits + 2 * length xs + 4)
       end)
    (fun _ _ => True).
Proof.
  intros K V Q ubits dbg keq borrow qeq hash qhash Hub KL HL fuel (b & Hb & Eb & Hd) Hf.
  assert (Ed : digits ubits = D b) by (rewrite Eb; apply digits_D). rewrite Ed in *.
  eapply (unwinding_contained_within_ok tkids _ _ _ _ _ (xhrep ubits b keq hash) _ _ hval_size 1 rbi_grow (hti_cost b)).
  - pose proof (xh_new_ok (V := V) ubits dbg b Hb ltac:(now rewrite <- Eb) Hub keq borrow qeq hash qhash KL HL fuel Hf) as X.
    rewrite <- Eb in X. exact X.
  - apply xh_clone_ok.
  - apply xh_drop_ok; trivial. now rewrite <- Eb.
  - intros [n o] m v G _ R.
    eapply safe_mono; [apply le_n| |apply (xhi_step_ok ubits dbg keq borrow qeq hash qhash fuel b Hb ltac:(now rewrite <- Eb) Hub KL HL Hf (n, o) m v G); [|exact R]].
    + intros r G' (v' & H & R'). exists v'. split; [|exact R']. destruct o as [o|xs], (snd r) as [y|]; exact H.
    + destruct o; [exact I|exact Eb].
  - intros [n o] v v' x H. apply (hti_after_size keq borrow qeq hash qhash b (n, o) v v' x). destruct o as [o|xs], x as [y|]; exact H.
  - apply hti_cost_mono.
  - apply xh_rep_roots.
Qed.
Print Assumptions C56_hash_map_unwinding.

(** Keys that are equal modulo 2 collide, in a 16-bit world.  A panic spoils the map; [collect]
    unwinds in the middle of a collision list, then completes, and the map is sound again. *)
Example hash_collect_hypotheses : supported 16 16 /\ 2 * digits 16 < 40.
Proof. split; [exists 4%N; repeat split; discriminate|vm_compute; repeat constructor]. Qed.
Example hash_collect_example :
  match run [] (hclient (@xh_new 16 N nat 16) xh_clone xh_drop
      (xhi_step 16 true N.eqb (fun k : N => k) N.eqb (fun k => k mod 2)%N (fun k => k mod 2)%N 40)
      [CNew; COp 0 (90, Collect [(0%N, 0); (2%N, 20); (4%N, 40); (1%N, 10)]); CClone 0;
       COp 0 (5, Call (MInsertMut 6%N 60)); COp 0 (90, Call (MGet 4%N)); COp 0 (90, Call (MInsertMut 1%N 11));
       COp 0 (30, Collect [(0%N, 1); (2%N, 21); (4%N, 41); (6%N, 61)]); COp 0 (90, Call (MGet 4%N));
       COp 0 (90, Collect [(0%N, 1); (2%N, 21); (4%N, 41); (6%N, 61)]); COp 0 (90, Call (MGet 4%N)); COp 0 (90, Call (MInsertMut 1%N 11));
       COp 0 (90, Call (MGet 1%N)); COp 1 (90, Call (MGet 4%N)); CDrop 0; CDrop 1] []) with
  | Some (h, (_, out)) => (out, forallb (fun x => match x with None => true | Some _ => false end) h)
  | None => ([], false)
  end =
  ([Some MoUnit; None; Some (MoVal None); None; None; Some (MoVal None); Some MoUnit; Some (MoVal (Some 41)); Some MoUnit;
    Some (MoVal (Some 11)); Some (MoVal (Some 40))], true).
Proof. vm_compute. reflexivity. Qed.
