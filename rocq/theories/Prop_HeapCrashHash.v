(** * Property C54: caught panics of user code on the shared heap, HashTrieMap

    The programs are those of HeapCrashHash.v, what a call may do is [ht_after] of
    HeapCrashHashMap.v, and the property is [unwinding_contained] of HeapCrash.v. *)
From Coq Require Import List NArith Arith Lia Bool Permutation.
From Verif Require Import Base Spec Sim SpecMap ListModel SparseModel HashModel HashProofs HashHist Prop_Hash CrashModel
  HeapModel HeapProofs HeapSafe HeapClient HeapWorld HeapList HeapHash HeapHashNodes HeapHashMap Prop_HeapHash
  HeapCrash HeapCrashHash HeapCrashHashProofs HeapCrashHashNodes HeapCrashHashMap.
Import ListNotations.

Lemma xh_rep_roots : forall ubits b K V (keq : K -> K -> bool) (hash : K -> N) m (v : hval K V) G,
  xhrep ubits b keq hash m v G -> exists ts, G = map Tree ts /\ hh_roots (fst m) = map pa ts.
Proof.
  intros ubits b K V keq hash m v G (w & (_ & _ & _ & t & _ & E & ->) & _). exists [t]. split; [reflexivity|].
  unfold hh_roots. cbn [map]. now rewrite E.
Qed.

(** Whatever user calls unwind: a call that completes does what it should; a call that unwinds
    leaves its version as it was, unless it works in place and at least two entries of the version
    have the hash of its key, in which case some of those may be lost and the size reported stays.
    No other version is touched, and the counts of all cells are right throughout. *)
Theorem C54_hash_map_unwinding : forall (K V Q : Type) (ubits : N) (dbg : bool)
  (keq : K -> K -> bool) (borrow : K -> Q) (qeq : Q -> Q -> bool) (hash : K -> N) (qhash : Q -> N),
  (ubits <= 64)%N -> key_laws keq borrow qeq -> hash_laws borrow qeq hash qhash ->
  forall (degree : N) (fuel : nat), supported ubits degree -> 2 * digits degree < fuel ->
  unwinding_contained tkids (@xh_new ubits K V degree) xh_clone xh_drop
    (xh_step ubits dbg keq borrow qeq hash qhash fuel) (fun m => hh_roots (fst m))
    (Sound (@nil (K * V))) (ht_after keq borrow qeq hash qhash (digits degree)).
Proof.
  intros K V Q ubits dbg keq borrow qeq hash qhash Hub KL HL degree fuel (b & Hb & -> & Hd) Hf.
  rewrite digits_D in *.
  eapply (unwinding_contained_ok tkids _ _ _ _ _ (xhrep ubits b keq hash) _ _ hval_size 1 (ht_xcost b)).
  - now apply (xh_new_ok ubits dbg b Hb Hd Hub keq borrow qeq hash qhash KL HL fuel Hf).
  - apply xh_clone_ok.
  - now apply xh_drop_ok.
  - now apply xh_step_ok.
  - apply ht_after_size.
  - apply ht_xcost_mono.
  - apply xh_rep_roots.
Qed.
Print Assumptions C54_hash_map_unwinding.

(** If no two different keys have the same hash, no version ever loses anything. *)
Lemma clash_one : forall K V Q (keq : K -> K -> bool) (borrow : K -> Q) (qeq : Q -> Q -> bool) (hash : K -> N), key_laws keq borrow qeq ->
  (forall a c, hash a = hash c -> keq a c = true) ->
  forall h (fm : fmap K V), unique_keys keq fm -> clash hash h fm <= 1.
Proof.
  intros K V Q keq borrow qeq hash KL Inj h fm U. unfold clash. induction U as [|x fm F U IH]; [cbn; lia|].
  cbn [filter]. destruct (N.eqb_spec (hash (fst x)) h) as [E|]; [|exact IH].
  assert (Z : filter (fun y : K * V => (hash (fst y) =? h)%N) fm = []); [|rewrite Z; apply le_n].
  clear IH U. induction F as [|y fm Hy F IH]; [reflexivity|]. cbn [filter].
  destruct (N.eqb_spec (hash (fst y)) h) as [E'|]; [|exact IH].
  rewrite (Inj (fst x) (fst y)) in Hy by congruence. discriminate.
Qed.

Theorem C54_hash_map_no_collisions : forall (K V Q : Type) (ubits : N) (dbg : bool)
  (keq : K -> K -> bool) (borrow : K -> Q) (qeq : Q -> Q -> bool) (hash : K -> N) (qhash : Q -> N),
  (ubits <= 64)%N -> key_laws keq borrow qeq -> hash_laws borrow qeq hash qhash ->
  (forall a c, hash a = hash c -> keq a c = true) ->
  forall (degree : N) (fuel : nat), supported ubits degree -> 2 * digits degree < fuel ->
  unwinding_contained tkids (@xh_new ubits K V degree) xh_clone xh_drop
    (xh_step ubits dbg keq borrow qeq hash qhash fuel) (fun m => hh_roots (fst m))
    (@nil (K * V))
    (fun '(n, o) fm fm' x =>
       match x with
       | Some y => (fm', y) = map_spec keq borrow qeq o fm
       | None => fm' = fm /\ n < digits degree + 5
       end).
Proof.
  intros K V Q ubits dbg keq borrow qeq hash qhash Hub KL HL Inj degree fuel (b & Hb & -> & Hd) Hf.
  rewrite digits_D in *.
  eapply (unwinding_contained_ok tkids _ _ _ _ _ (fun m fm G => xhrep ubits b keq hash m (Sound fm) G) _ _ (@length (K * V)) 1 (ht_xcost b)).
  - now apply (xh_new_ok ubits dbg b Hb Hd Hub keq borrow qeq hash qhash KL HL fuel Hf).
  - intros c v G R. now apply xh_clone_ok.
  - intros c v G R. eapply xh_drop_ok; eauto.
  - intros [n o] c fm G R.
    eapply safe_mono; [apply le_n| |exact (xh_step_ok ubits dbg b Hb Hd Hub keq borrow qeq hash qhash KL HL fuel Hf (n, o) c (Sound fm) G R)].
    intros [m' x] G' (v' & Ha & R'). cbn [fst snd ht_after] in *.
    assert (U : unique_keys keq fm) by (destruct R as (w & _ & _ & es & _ & _ & _ & U & _); exact U).
    assert (Cl := fun h => clash_one K V Q keq borrow qeq hash KL Inj h fm U).
    destruct x as [y|].
    + destruct Ha as (-> & ->). eexists. split; [symmetry; apply surjective_pairing|exact R'].
    + destruct Ha as (h & _ & Hn & [->|(_ & L & _)]); specialize (Cl h); [|lia].
      exists fm. split; [split; [reflexivity|lia]|exact R'].
  - intros [n o] fm fm' x H. assert (A : ht_after keq borrow qeq hash qhash (n + 1) (n, o) (Sound fm) (Sound fm') (match x with Some y => Some y | None => None end) \/ fm' = fm).
    { destruct x as [y|]; [left|now right]. cbn [ht_after]. rewrite <- H. auto. }
    destruct A as [A| ->]; [|lia]. exact (ht_after_size _ _ _ _ _ _ _ _ _ _ A).
  - apply ht_xcost_mono.
  - intros c v G R. eapply xh_rep_roots; exact R.
Qed.
Print Assumptions C54_hash_map_no_collisions.

(** The three keys 0, 2 and 4 collide.  A clone is taken; a comparison of an insertion in place of 6
    into the original unwinds while the collision list is taken apart.  The original has lost
    entries and still reports size 4, the clone has them all and goes on.  A removal from the clone
    that works on a clone of its own unwinds as well and leaves it whole. *)
Notation hop := (map_op N nat N).
Notation xh_ex := (xh_step 64 true N.eqb (fun k : N => k) N.eqb (fun k => k mod 2)%N (fun k => k mod 2)%N 65).
Definition all (o : hop) : nat * hop := (60, o).
Definition hash_crash_example : list (cmd (nat * hop)) :=
  CNew :: map (fun k => COp 0 (all (MInsertMut k (10 * N.to_nat k)))) [0; 2; 4; 1]%N ++
  [CClone 0; COp 0 (5, MInsertMut 6%N 60); COp 0 (all (MGet 0%N)); COp 0 (all (MGet 2%N)); COp 0 (all (MGet 4%N)); COp 0 (all (MGet 1%N));
   COp 0 (all MSize); COp 0 (all (MRemoveMut 1%N)); CClone 0; COp 2 (all (MGet 4%N)); COp 2 (all MSize);
   COp 1 (2, MRemove 2%N); COp 1 (all (MGet 0%N)); COp 1 (all (MGet 2%N)); COp 1 (all (MGet 4%N));
   COp 1 (3, MGetMut 1%N S); COp 1 (all (MGetMut 1%N S)); COp 1 (all (MInsertMut 6%N 60)); COp 1 (all (MGet 6%N)); COp 1 (all MSize);
   COp 0 (all (MGet 1%N))].

Example hash_crash_hypotheses :
  supported 64 4 /\ 2 * digits 4 < 65 /\ key_laws N.eqb (fun k => k) N.eqb /\
  hash_laws (fun k => k) N.eqb (fun k => k mod 2)%N (fun k => k mod 2)%N.
Proof.
  split; [exists 2%N; repeat split; discriminate|]. split; [vm_compute; repeat constructor|].
  split; [constructor; intros; try apply N.eqb_refl; try reflexivity;
    repeat match goal with H : (_ =? _)%N = true |- _ => apply N.eqb_eq in H end; subst; apply N.eqb_refl|].
  constructor; [reflexivity| |].
  - intros a c E. apply N.eqb_eq in E. now subst.
  - intros q. eapply N.lt_trans; [apply N.mod_lt; discriminate|reflexivity].
Qed.

Example hash_crash_example_runs :
  match run [] (hclient (@xh_new 64 N nat 4) xh_clone xh_drop xh_ex (hash_crash_example ++ [CDrop 0; CDrop 1; CDrop 2]) []) with
  | Some (h, (_, out)) => (skipn 4 out, forallb (fun x => match x with None => true | Some _ => false end) h)
  | None => ([], false)
  end =
  ([None; Some (MoVal (Some 0)); Some (MoVal None); Some (MoVal None); Some (MoVal (Some 10)); Some (MoNat 4); None;
    Some (MoVal None); Some (MoNat 4);
    None; Some (MoVal (Some 0)); Some (MoVal (Some 20)); Some (MoVal (Some 40));
    None; Some (MoVal (Some 10)); Some MoUnit; Some (MoVal (Some 60)); Some (MoNat 5); Some (MoVal (Some 10))], true).
Proof. vm_compute. reflexivity. Qed.

(** A key type with an injective hash, and a panic in the clone of a shared entry. *)
Example no_collisions_hypotheses :
  key_laws Bool.eqb (fun k => k) Bool.eqb /\ hash_laws (fun k => k) Bool.eqb N.b2n N.b2n /\
  (forall a c, N.b2n a = N.b2n c -> Bool.eqb a c = true).
Proof.
  split; [constructor|split; [constructor|]]; intros; repeat match goal with x : bool |- _ => destruct x end; cbn in *;
    try reflexivity; try discriminate; trivial.
Qed.
Example no_collisions_runs :
  match run [] (hclient (@xh_new 64 bool nat 4) xh_clone xh_drop
      (xh_step 64 true Bool.eqb (fun k : bool => k) Bool.eqb N.b2n N.b2n 65)
      [CNew; COp 0 (60, MInsertMut true 1); COp 0 (60, MInsertMut false 0); CClone 0;
       COp 0 (3, MGetMut true S); COp 0 (60, MGet true); COp 0 (60, MGetMut true S); COp 1 (1, MRemoveMut false);
       COp 1 (60, MSize); COp 0 (60, MGet true); COp 1 (60, MGet true); CDrop 0; CDrop 1] []) with
  | Some (h, (_, out)) => (skipn 2 out, forallb (fun x => match x with None => true | Some _ => false end) h)
  | None => ([], false)
  end =
  ([None; Some (MoVal (Some 1)); Some (MoVal (Some 1)); None; Some (MoNat 2); Some (MoVal (Some 2)); Some (MoVal (Some 1))], true).
Proof. vm_compute. reflexivity. Qed.
