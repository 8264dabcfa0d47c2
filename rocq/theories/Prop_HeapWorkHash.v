(** * Property C50 for HashTrieMap and HashTrieSet

    See Prop_HeapWork.v.  The tables are hash_trie_map/mod.rs:95-106 and
    hash_trie_set/mod.rs:76-87: every call Θ(1) on average and Θ(n) in the worst
    case.  Here [w] is the degree of the map, [d] the number of digits of a hash in
    that base (both fixed when the map is made), and [c] the number of entries of
    the map whose key hashes to the same 64 bits as the key of the call: how many
    other entries there are does not matter.

    [TSteps k] makes an iterator and calls it [k] times, [TCount] runs one to its end. *)
From Coq Require Import List NArith Arith Lia Bool Permutation.
From Verif Require Import Base Spec Sim SpecMap SparseModel HashModel HashProofs HashHist HashExtraProofs Prop_Hash
  HeapModel HeapProofs HeapSafe HeapClient HeapWorld HeapHash HeapHashProofs HeapHashMap HeapSet
  HeapWork HeapWorkHash HeapWorkHashMap.
From Verif Require Prop_HeapSeq Prop_HeapHash.
Import ListNotations.
Local Open Scope nat_scope.

Notation always := Prop_HeapSeq.always.

(** Entries whose key has hash [h]. *)
Notation alike hash h m := (length (filter (fun x => (hash (fst x) =? h)%N) m)).
Notation alike_set hash h s := (length (filter (fun t => (hash t =? h)%N) s)).

Definition map_price (w d : nat) {K V Q : Type} (hash : K -> N) (qhash : Q -> N) (o : ht_call K V Q) (m : fmap K V) : nat :=
  match o with
  | TOp (MInsert k _) => d * (4 * w + 21) + (2 * w + 34) * (alike hash (hash k) m + 1) + 8 * w + 40
  | TOp (MInsertMut k _) => d * (4 * w + 21) + (2 * w + 34) * (alike hash (hash k) m + 1) + 8 * w + 38
  | TOp (MRemove q) => d * (6 * w + 29) + (2 * w + 31) * (alike hash (qhash q) m + 1) + 3 * w + 40
  | TOp (MRemoveMut q) => d * (6 * w + 29) + (2 * w + 31) * (alike hash (qhash q) m + 1) + 3 * w + 36
  | TOp (MGetMut q _) => d * (3 * w + 11) + (2 * w + 31) * (alike hash (qhash q) m + 1) + 8 * w + 56
  | TOp (MGet q) | TOp (MGetKeyValue q) | TOp (MContains q) => d + 3 * (alike hash (qhash q) m + 1) + 2
  | TOp MSize | TOp MIsEmpty => 0
  | TOp MClone => 2
  | TSteps k => (3 * d + 3) * Nat.min (length m) k + 1
  | TCount _ => (3 * d + 3) * length m + 1
  end.

Definition map_limit (w d : nat) {K V Q : Type} (hash : K -> N) (qhash : Q -> N) (o : ht_call K V Q) (m : fmap K V) : nat :=
  match o with
  | TOp (MInsertMut k _) => d * (2 * w + 15) + 28 * (alike hash (hash k) m + 1) + 2 * w + 20
  | TOp (MRemoveMut q) => d * (4 * w + 23) + 25 * (alike hash (qhash q) m + 1) + 2 * w + 33
  | TOp (MGetMut q _) => d * (2 * w + 8) + 25 * (alike hash (qhash q) m + 1) + 2 * w + 38
  | TOp (MGet q) | TOp (MGetKeyValue q) | TOp (MContains q) => d + 3 * (alike hash (qhash q) m + 1) + 2
  | TSteps k => (3 * d + 3) * Nat.min (length m) k + 1
  | TCount _ => (3 * d + 3) * length m + 1
  | _ => 0
  end.

Lemma price_is : forall b {K V Q} (hash : K -> N) (qhash : Q -> N) o (m : fmap K V),
  full_cost b hash qhash o m = map_price (N.to_nat (2 ^ b)) (D b) hash qhash o m.
Proof.
  intros b K V Q hash qhash o m.
  destruct o as [[]| |]; unfold full_cost, map_price, direct_cost, insert_cost, remove_cost, get_mut_cost, get_cost, read_cost,
    ins_cost, rem_cost, mut_cost, mmc, lrc, clash; try (now rewrite Nat.min_id); try reflexivity; ring.
Qed.

Lemma limit_is : forall b {K V Q} (hash : K -> N) (qhash : Q -> N) o (m : fmap K V),
  direct_cost b hash qhash 0 o m = map_limit (N.to_nat (2 ^ b)) (D b) hash qhash o m.
Proof.
  intros b K V Q hash qhash o m.
  destruct o as [[]| |]; unfold map_limit, direct_cost, insert_cost, remove_cost, get_mut_cost, get_cost, read_cost,
    ins_cost, rem_cost, mut_cost, mmc, lrc, clash; try (now rewrite Nat.min_id); try reflexivity; ring.
Qed.

(** ** HashTrieMap *)
Section Map.
Context (K V Q : Type) (ubits : N) (dbg : bool).
Context (keq : K -> K -> bool) (borrow : K -> Q) (qeq : Q -> Q -> bool) (hash : K -> N) (qhash : Q -> N).
Context (Hub : (ubits <= 64)%N) (KL : key_laws keq borrow qeq) (HL : hash_laws borrow qeq hash qhash).
Context (b : N) (fuel : nat) (Hb : (0 < b)%N) (Hd : (2 ^ b <= ubits)%N) (Hf : 2 * D b < fuel).
Notation w := (N.to_nat (2 ^ b)).

Lemma hash_map_works :
  works (@hh_new ubits K V (2 ^ b)) hh_clone hh_drop (hh_step ubits dbg keq borrow qeq hash qhash fuel)
    (@nil (K * V)) (ht_call_spec keq borrow qeq) always
    (w + 4) 1 1 (map_price w (D b) hash qhash) ht_direct (map_limit w (D b) hash qhash).
Proof.
  eapply (works_ok tkids (w + 3) (fun c => length (tkids c) <= w) _ _ _ _ (hhrep ubits b keq hash)).
  - eapply dear_le; [apply (hh_new_dear ubits dbg b Hb Hd Hub keq borrow qeq hash qhash KL HL fuel Hf)|lia].
  - intros c v G R. now apply (hh_clone_dear ubits b keq hash).
  - intros c v G R. now apply (hh_drop_dear ubits b Hb Hd Hub keq hash c v).
  - intros o c v G R _. rewrite <- price_is. now apply hh_step_dear.
  - intros o c v G R _ Di. rewrite <- limit_is. now apply hh_direct_dear.
  - intros c v G R. now apply (hh_clone_dear ubits b keq hash).
Qed.
End Map.

Theorem C50_hash_map_total_work : forall (K V Q : Type) (ubits : N) (dbg : bool)
  (keq : K -> K -> bool) (borrow : K -> Q) (qeq : Q -> Q -> bool) (hash : K -> N) (qhash : Q -> N),
  (ubits <= 64)%N -> key_laws keq borrow qeq -> hash_laws borrow qeq hash qhash ->
  forall (degree : N) (fuel : nat), supported ubits degree -> 2 * digits degree < fuel ->
  total_work (@hh_new ubits K V degree) hh_clone hh_drop
    (hh_step ubits dbg keq borrow qeq hash qhash fuel)
    (@nil (K * V)) (ht_call_spec keq borrow qeq) always
    (N.to_nat degree + 4) 1 1
    (fun o m =>
       let w := N.to_nat degree in
       let d := digits degree in
       let c h := length (filter (fun x => (hash (fst x) =? h)%N) m) in
       match o with
       | TOp (MInsert k _) => d * (4 * w + 21) + (2 * w + 34) * (c (hash k) + 1) + 8 * w + 40
       | TOp (MInsertMut k _) => d * (4 * w + 21) + (2 * w + 34) * (c (hash k) + 1) + 8 * w + 38
       | TOp (MRemove q) => d * (6 * w + 29) + (2 * w + 31) * (c (qhash q) + 1) + 3 * w + 40
       | TOp (MRemoveMut q) => d * (6 * w + 29) + (2 * w + 31) * (c (qhash q) + 1) + 3 * w + 36
       | TOp (MGetMut q _) => d * (3 * w + 11) + (2 * w + 31) * (c (qhash q) + 1) + 8 * w + 56
       | TOp (MGet q) | TOp (MGetKeyValue q) | TOp (MContains q) => d + 3 * (c (qhash q) + 1) + 2
       | TOp MSize | TOp MIsEmpty => 0
       | TOp MClone => 2
       | TSteps k => (3 * d + 3) * Nat.min (length m) k + 1
       | TCount _ => (3 * d + 3) * length m + 1
       end).
Proof.
  intros K V Q ubits dbg keq borrow qeq hash qhash Hub KL HL degree fuel (b & Hb & -> & Hd) Hf.
  rewrite digits_D in *.
  exact (proj1 (hash_map_works K V Q ubits dbg keq borrow qeq hash qhash Hub KL HL b fuel Hb Hd Hf)).
Qed.
Print Assumptions C50_hash_map_total_work.

Theorem C50_hash_map_call_work : forall (K V Q : Type) (ubits : N) (dbg : bool)
  (keq : K -> K -> bool) (borrow : K -> Q) (qeq : Q -> Q -> bool) (hash : K -> N) (qhash : Q -> N),
  (ubits <= 64)%N -> key_laws keq borrow qeq -> hash_laws borrow qeq hash qhash ->
  forall (degree : N) (fuel : nat), supported ubits degree -> 2 * digits degree < fuel ->
  call_work (@hh_new ubits K V degree) hh_clone hh_drop
    (hh_step ubits dbg keq borrow qeq hash qhash fuel)
    (@nil (K * V)) (ht_call_spec keq borrow qeq) always
    (fun o => match o with TOp (MInsert _ _) | TOp (MRemove _) | TOp MClone => false | _ => true end)
    (fun o m =>
       let w := N.to_nat degree in
       let d := digits degree in
       let c h := length (filter (fun x => (hash (fst x) =? h)%N) m) in
       match o with
       | TOp (MInsertMut k _) => d * (2 * w + 15) + 28 * (c (hash k) + 1) + 2 * w + 20
       | TOp (MRemoveMut q) => d * (4 * w + 23) + 25 * (c (qhash q) + 1) + 2 * w + 33
       | TOp (MGetMut q _) => d * (2 * w + 8) + 25 * (c (qhash q) + 1) + 2 * w + 38
       | TOp (MGet q) | TOp (MGetKeyValue q) | TOp (MContains q) => d + 3 * (c (qhash q) + 1) + 2
       | TSteps k => (3 * d + 3) * Nat.min (length m) k + 1
       | TCount _ => (3 * d + 3) * length m + 1
       | _ => 0
       end).
Proof.
  intros K V Q ubits dbg keq borrow qeq hash qhash Hub KL HL degree fuel (b & Hb & -> & Hd) Hf.
  rewrite digits_D in *.
  exact (proj1 (proj2 (hash_map_works K V Q ubits dbg keq borrow qeq hash qhash Hub KL HL b fuel Hb Hd Hf))).
Qed.
Print Assumptions C50_hash_map_call_work.

Theorem C50_hash_map_clone_work : forall (K V Q : Type) (ubits : N) (dbg : bool)
  (keq : K -> K -> bool) (borrow : K -> Q) (qeq : Q -> Q -> bool) (hash : K -> N) (qhash : Q -> N),
  (ubits <= 64)%N -> key_laws keq borrow qeq -> hash_laws borrow qeq hash qhash ->
  forall (degree : N) (fuel : nat), supported ubits degree -> 2 * digits degree < fuel ->
  clone_work (@hh_new ubits K V degree) hh_clone hh_drop
    (hh_step ubits dbg keq borrow qeq hash qhash fuel)
    (@nil (K * V)) (ht_call_spec keq borrow qeq) always 1.
Proof.
  intros K V Q ubits dbg keq borrow qeq hash qhash Hub KL HL degree fuel (b & Hb & -> & Hd) Hf.
  rewrite digits_D in *.
  exact (proj2 (proj2 (hash_map_works K V Q ubits dbg keq borrow qeq hash qhash Hub KL HL b fuel Hb Hd Hf))).
Qed.
Print Assumptions C50_hash_map_clone_work.

(** The program and the threads of Prop_HeapHash.v, under a hash with collisions, meet the hypotheses. *)
Example hash_map_work_case :
  let price := map_price 4 32 Prop_HeapHash.hx_hash Prop_HeapHash.hx_hash in
  let main := Prop_HeapHash.tthreads_main in
  let vs := fst (sclient [] Prop_HeapHash.hx_spec main []) in
  digits 4 = 32 /\
  match run [] (hclient Prop_HeapHash.hx_new hh_clone hh_drop Prop_HeapHash.hx_step main []) with
  | Some (h, (rs, _)) =>
      work [] (hclient Prop_HeapHash.hx_new hh_clone hh_drop Prop_HeapHash.hx_step main []) +
      moves (flat_map (fun _ => [0; 1]) (seq 0 900))
        (h, map (job_start Prop_HeapHash.hx_new hh_clone hh_drop Prop_HeapHash.hx_step rs) Prop_HeapHash.tthreads_jobs)
  | None => 0
  end = 1305 /\
  price_of [] Prop_HeapHash.hx_spec 8 1 1 price main [] +
  list_sum (map (fun j => price_of [] Prop_HeapHash.hx_spec 8 1 1 price (job_cmds j) (hand vs (job_regs j)))
              Prop_HeapHash.tthreads_jobs) = 86 * 100 + 46.
Proof. vm_compute. split; [reflexivity|]. split; reflexivity. Qed.

Example hash_map_call_case : exists m,
  nth_error (fst (sclient (@nil (N * nat)) Prop_HeapHash.hx_spec Prop_HeapHash.tthreads_main [])) 1 = Some (Some m) /\
  length m = 3 /\ length (filter (fun x => (Prop_HeapHash.hx_hash (fst x) =? Prop_HeapHash.hx_hash 2)%N) m) = 2 /\
  ht_direct (@TOp N nat N (MInsertMut 2%N 20)) = true.
Proof. eexists. repeat split. Qed.

(** ** HashTrieSet *)
Section Set_.
Context (T Q : Type) (ubits : N) (dbg : bool).
Context (teq : T -> T -> bool) (borrow : T -> Q) (qeq : Q -> Q -> bool) (hash : T -> N) (qhash : Q -> N).
Context (Hub : (ubits <= 64)%N) (KL : key_laws teq borrow qeq) (HL : hash_laws borrow qeq hash qhash).
Context (b : N) (fuel : nat) (Hb : (0 < b)%N) (Hd : (2 ^ b <= ubits)%N) (Hf : 2 * D b < fuel).
Notation w := (N.to_nat (2 ^ b)).

Lemma hash_set_works :
  works (@hh_new ubits T unit (2 ^ b)) hh_clone hh_drop (us_step ubits dbg teq borrow qeq hash qhash fuel)
    (@nil T) (us_spec teq borrow qeq) always
    (w + 4) 1 1 (fun o s => map_price w (D b) hash qhash (us_map o) (map ut s)) (fun o => ht_direct (us_map o))
    (fun o s => map_limit w (D b) hash qhash (us_map o) (map ut s)).
Proof.
  eapply (works_ok tkids (w + 3) (fun c => length (tkids c) <= w) _ _ _ _ (usrep ubits b teq hash)).
  - eapply dear_le; [apply (hh_new_dear ubits dbg b Hb Hd Hub teq borrow qeq hash qhash KL HL fuel Hf)|lia].
  - intros c v G R. now apply (hh_clone_dear ubits b teq hash).
  - intros c v G R. now apply (hh_drop_dear ubits b Hb Hd Hub teq hash c (map ut v)).
  - intros o c v G R _. rewrite <- price_is. destruct (us_map_spec T Q teq borrow qeq o v) as [E1 E2].
    rewrite <- E2. unfold usrep. rewrite <- E1.
    apply (dear_wrap tkids (w + 3) _ _ _ us_answer G
             (fun c => hhrep ubits b teq hash c (fst (ht_call_spec teq borrow qeq (us_map o) (map ut v))))
             (snd (ht_call_spec teq borrow qeq (us_map o) (map ut v)))).
    now apply hh_step_dear.
  - intros o c v G R _ Di. rewrite <- limit_is. destruct (us_map_spec T Q teq borrow qeq o v) as [E1 E2].
    rewrite <- E2. unfold usrep. rewrite <- E1.
    apply (dear_wrap tkids 0 _ _ _ us_answer G
             (fun c => hhrep ubits b teq hash c (fst (ht_call_spec teq borrow qeq (us_map o) (map ut v))))
             (snd (ht_call_spec teq borrow qeq (us_map o) (map ut v)))).
    now apply hh_direct_dear.
  - intros c v G R. now apply (hh_clone_dear ubits b teq hash).
Qed.
End Set_.

Lemma alike_ut : forall T (hash : T -> N) h (s : list T),
  length (filter (fun x => (hash (fst x) =? h)%N) (map ut s)) = length (filter (fun t => (hash t =? h)%N) s).
Proof.
  intros T hash h s. now rewrite (filter_ut (fun t => (hash t =? h)%N) s), map_length.
Qed.

Theorem C50_hash_set_total_work : forall (T Q : Type) (ubits : N) (dbg : bool)
  (teq : T -> T -> bool) (borrow : T -> Q) (qeq : Q -> Q -> bool) (hash : T -> N) (qhash : Q -> N),
  (ubits <= 64)%N -> key_laws teq borrow qeq -> hash_laws borrow qeq hash qhash ->
  forall (degree : N) (fuel : nat), supported ubits degree -> 2 * digits degree < fuel ->
  total_work (@hh_new ubits T unit degree) hh_clone hh_drop
    (us_step ubits dbg teq borrow qeq hash qhash fuel)
    (@nil T) (us_spec teq borrow qeq) always
    (N.to_nat degree + 4) 1 1
    (fun o s =>
       let w := N.to_nat degree in
       let d := digits degree in
       let c h := length (filter (fun t => (hash t =? h)%N) s) in
       match o with
       | UkOp (SetInsert t) => d * (4 * w + 21) + (2 * w + 34) * (c (hash t) + 1) + 8 * w + 40
       | UkOp (SetInsertMut t) => d * (4 * w + 21) + (2 * w + 34) * (c (hash t) + 1) + 8 * w + 38
       | UkOp (SetRemove q) => d * (6 * w + 29) + (2 * w + 31) * (c (qhash q) + 1) + 3 * w + 40
       | UkOp (SetRemoveMut q) => d * (6 * w + 29) + (2 * w + 31) * (c (qhash q) + 1) + 3 * w + 36
       | UkOp (SetGet q) | UkOp (SetContains q) => d + 3 * (c (qhash q) + 1) + 2
       | UkOp SetSize | UkOp SetIsEmpty => 0
       | UkOp SetClone => 2
       | UkSteps k => (3 * d + 3) * Nat.min (length s) k + 1
       | UkCount _ => (3 * d + 3) * length s + 1
       end).
Proof.
  intros T Q ubits dbg teq borrow qeq hash qhash Hub KL HL degree fuel (b & Hb & -> & Hd) Hf.
  rewrite digits_D in *. intros main jobs Wm vs Pj Wj.
  destruct (proj1 (hash_set_works T Q ubits dbg teq borrow qeq hash qhash Hub KL HL b fuel Hb Hd Hf) main jobs Wm Pj Wj)
    as (h & rs & E & X).
  exists h, rs. split; [exact E|]. intros sched. eapply Nat.le_trans; [apply X|].
  apply Nat.eq_le_incl. f_equal; [|f_equal; apply map_ext; intros j]; apply price_ext; intros [[]| |] s;
    unfold us_map, map_call, map_price; cbv zeta; rewrite ?alike_ut, ?map_length; reflexivity.
Qed.
Print Assumptions C50_hash_set_total_work.

Theorem C50_hash_set_call_work : forall (T Q : Type) (ubits : N) (dbg : bool)
  (teq : T -> T -> bool) (borrow : T -> Q) (qeq : Q -> Q -> bool) (hash : T -> N) (qhash : Q -> N),
  (ubits <= 64)%N -> key_laws teq borrow qeq -> hash_laws borrow qeq hash qhash ->
  forall (degree : N) (fuel : nat), supported ubits degree -> 2 * digits degree < fuel ->
  call_work (@hh_new ubits T unit degree) hh_clone hh_drop
    (us_step ubits dbg teq borrow qeq hash qhash fuel)
    (@nil T) (us_spec teq borrow qeq) always
    (fun o => match o with UkOp (SetInsert _) | UkOp (SetRemove _) | UkOp SetClone => false | _ => true end)
    (fun o s =>
       let w := N.to_nat degree in
       let d := digits degree in
       let c h := length (filter (fun t => (hash t =? h)%N) s) in
       match o with
       | UkOp (SetInsertMut t) => d * (2 * w + 15) + 28 * (c (hash t) + 1) + 2 * w + 20
       | UkOp (SetRemoveMut q) => d * (4 * w + 23) + 25 * (c (qhash q) + 1) + 2 * w + 33
       | UkOp (SetGet q) | UkOp (SetContains q) => d + 3 * (c (qhash q) + 1) + 2
       | UkSteps k => (3 * d + 3) * Nat.min (length s) k + 1
       | UkCount _ => (3 * d + 3) * length s + 1
       | _ => 0
       end).
Proof.
  intros T Q ubits dbg teq borrow qeq hash qhash Hub KL HL degree fuel (b & Hb & -> & Hd) Hf.
  rewrite digits_D in *. intros main i o v Wm Ev Po Di.
  assert (X := proj1 (proj2 (hash_set_works T Q ubits dbg teq borrow qeq hash qhash Hub KL HL b fuel Hb Hd Hf)) main i o v Wm Ev Po).
  destruct o as [[]| |]; try discriminate Di; specialize (X eq_refl); unfold us_map, map_call, map_limit in X; cbv zeta;
    rewrite ?alike_ut, ?map_length in X; exact X.
Qed.
Print Assumptions C50_hash_set_call_work.

Theorem C50_hash_set_clone_work : forall (T Q : Type) (ubits : N) (dbg : bool)
  (teq : T -> T -> bool) (borrow : T -> Q) (qeq : Q -> Q -> bool) (hash : T -> N) (qhash : Q -> N),
  (ubits <= 64)%N -> key_laws teq borrow qeq -> hash_laws borrow qeq hash qhash ->
  forall (degree : N) (fuel : nat), supported ubits degree -> 2 * digits degree < fuel ->
  clone_work (@hh_new ubits T unit degree) hh_clone hh_drop
    (us_step ubits dbg teq borrow qeq hash qhash fuel)
    (@nil T) (us_spec teq borrow qeq) always 1.
Proof.
  intros T Q ubits dbg teq borrow qeq hash qhash Hub KL HL degree fuel (b & Hb & -> & Hd) Hf.
  rewrite digits_D in *.
  exact (proj2 (proj2 (hash_set_works T Q ubits dbg teq borrow qeq hash qhash Hub KL HL b fuel Hb Hd Hf))).
Qed.
Print Assumptions C50_hash_set_clone_work.

(** A set of three elements, two of which collide, with another version alive. *)
Definition hset_work_main : list (cmd (hs_call N N)) :=
  CNew :: map (fun k => COp 0 (UkOp (SetInsertMut k))) [0; 1; 3]%N ++ [CClone 0; COp 0 (UkOp (SetRemoveMut 0%N))].
Example hash_set_work_case : exists s,
  within (@nil N) (us_spec N.eqb (fun k => k) N.eqb) always hset_work_main [] /\
  nth_error (fst (sclient [] (us_spec N.eqb (fun k => k) N.eqb) hset_work_main [])) 1 = Some (Some s) /\
  length s = 3 /\
  length (filter (fun t => (Prop_HeapHash.hx_hash t =? Prop_HeapHash.hx_hash 2)%N) s) = 2 /\
  work [] (hclient (@hh_new 64 N unit 4) hh_clone hh_drop
             (us_step 64 true N.eqb (fun k => k) N.eqb Prop_HeapHash.hx_hash Prop_HeapHash.hx_hash 65) hset_work_main []) = 654.
Proof.
  eexists. split; [apply Prop_HeapSeq.within_always|].
  split; [vm_compute; reflexivity|]. split; [reflexivity|]. split; [reflexivity|]. vm_compute. reflexivity.
Qed.
