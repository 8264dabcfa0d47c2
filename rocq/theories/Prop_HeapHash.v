(** * Property C36, and C38, C40, C42 for HashTrieMap

    HashTrieMap on the shared, reference counted heap (HeapHash.v).  The
    properties are those of HeapWorld.v; the specification is [ht_call_spec]
    of HeapHashMap.v: finite maps (SpecMap.v), iteration observed through its
    size hints and by counting the entries with any given property.
    Parameters as in Prop_Hash.v: any supported degree, any lawful hasher, in
    particular one under which keys collide.
    HashTrieSet is a struct around such a map with unit values (C18). *)
From Coq Require Import List NArith Arith Lia Bool Permutation.
From Verif Require Import Base Spec Sim SpecMap SparseModel HashModel HashProofs HashHist Prop_Hash
  HeapModel HeapProofs HeapSafe HeapClient HeapWorld HeapHash HeapHashProofs HeapHashMap Prop_HeapRB.
Import ListNotations.
Local Open Scope nat_scope.

(** The pointer in a map value: hash_trie_map/mod.rs:116-125. *)
Definition hh_roots (m : hht) : list addr := [hh_root m].

Lemma hh_rep_roots : forall ubits b K V (keq : K -> K -> bool) (hash : K -> N) m (fm : fmap K V) G,
  hhrep ubits b keq hash m fm G -> exists ts, G = map Tree ts /\ hh_roots m = map pa ts.
Proof.
  intros ubits b K V keq hash m fm G (w & _ & _ & _ & t & _ & E & ->). exists [t]. split; [reflexivity|].
  unfold hh_roots. cbn [map]. now rewrite E.
Qed.

(** ** C36: persistence *)
Theorem C36_hash_map_persistent : forall (K V Q : Type) (ubits : N) (dbg : bool)
  (keq : K -> K -> bool) (borrow : K -> Q) (qeq : Q -> Q -> bool) (hash : K -> N) (qhash : Q -> N),
  (ubits <= 64)%N -> key_laws keq borrow qeq -> hash_laws borrow qeq hash qhash ->
  forall (degree : N) (fuel : nat), supported ubits degree -> 2 * digits degree < fuel ->
  persistent (@hh_new ubits K V degree) hh_clone hh_drop
    (hh_step ubits dbg keq borrow qeq hash qhash fuel)
    (@nil (K * V)) (ht_call_spec keq borrow qeq) always.
Proof.
  intros K V Q ubits dbg keq borrow qeq hash qhash Hub KL HL degree fuel (b & Hb & -> & Hd) Hf.
  rewrite digits_D in *.
  eapply (persistent_ok tkids _ _ _ _ (hhrep ubits b keq hash) _ _ _ 1 (ht_cost b hash qhash)).
  - now apply (hh_new_ok ubits dbg b Hb Hd Hub keq borrow qeq hash qhash KL HL fuel Hf).
  - apply hh_clone_ok.
  - now apply hh_drop_ok.
  - intros. now apply hh_step_ok.
Qed.
Print Assumptions C36_hash_map_persistent.

(** Degree 4 and the hash [k / 3], so that 0, 1, 2 collide and so do 3, 4, 5: buckets
    at the deepest level.  The clone sees neither the removals, the second of which
    shrinks a bucket to a single entry and the third of which compresses the path
    to it, nor the insertions, nor the write through get_mut. *)
Definition hx_hash (k : N) : N := (k / 3) mod 2 ^ 64.
Notation hx_call := (ht_call N nat N).
Definition hx_new := @hh_new 64 N nat 4.
Definition hx_step := @hh_step 64 true N nat N N.eqb (fun k => k) N.eqb hx_hash hx_hash 65.
Definition hx_spec := @ht_call_spec N nat N N.eqb (fun k => k) N.eqb.
Definition hx_heap : list (cmd hx_call) :=
  CNew :: map (fun k => COp 0 (TOp (MInsertMut k (N.to_nat k * 10)))) [0; 1; 2; 3; 4]%N ++
  [CClone 0; COp 0 (TOp (MRemoveMut 1%N)); COp 0 (TOp (MRemove 0%N)); COp 0 (TOp (MRemove 4%N)); COp 0 (TOp (MRemove 9%N));
   COp 1 (TOp (MInsert 1%N 77)); COp 1 (TOp (MInsert 5%N 50)); COp 1 (TOp (MGetMut 2%N S)); CClone 1; CDrop 1;
   COp 0 (TSteps 3); COp 2 (TCount (fun x => Nat.leb 30 (snd x))); COp 0 (TCount (fun _ => true));
   COp 0 (TOp (MGet 2%N)); COp 2 (TOp (MGet 2%N)); COp 0 (TOp (MContains 1%N)); COp 2 (TOp (MGetKeyValue 1%N));
   COp 0 (TOp MSize); COp 2 (TOp MSize)].

Example C36_example :
  supported 64 4 /\ 2 * digits 4 < 65 /\ key_laws N.eqb (fun k => k) N.eqb /\
  hash_laws (fun k => k) N.eqb hx_hash hx_hash /\ hx_hash 0 = hx_hash 2 /\
  match run [] (hclient hx_new hh_clone hh_drop hx_step hx_heap []) with
  | Some (_, (_, out)) => skipn 5 out
  | None => []
  end =
  [TObs (MoBool true); TObs MoUnit; TObs MoUnit; TObs MoUnit; TObs MoUnit; TObs MoUnit; TObs (MoVal (Some 20));
   THints [(2, true); (1, true); (0, false)]; TNum 4; TNum 2;
   TObs (MoVal (Some 20)); TObs (MoVal (Some 21)); TObs (MoBool false); TObs (MoKV (Some (1%N, 77)));
   TObs (MoNat 2); TObs (MoNat 6)].
Proof.
  split; [exists 2%N; repeat split; discriminate|]. split; [vm_compute; repeat constructor|].
  split; [constructor; intros; try apply N.eqb_refl; try reflexivity;
    repeat match goal with H : (_ =? _)%N = true |- _ => apply N.eqb_eq in H end; subst; apply N.eqb_refl|].
  split; [constructor; [reflexivity| |]|].
  - intros a c E. apply N.eqb_eq in E. now subst.
  - intros q. apply N.mod_lt. discriminate.
  - split; [reflexivity|]. vm_compute. reflexivity.
Qed.

(** ** C38: counts *)
Theorem C38_hash_map_counts_exact : forall (K V Q : Type) (ubits : N) (dbg : bool)
  (keq : K -> K -> bool) (borrow : K -> Q) (qeq : Q -> Q -> bool) (hash : K -> N) (qhash : Q -> N),
  (ubits <= 64)%N -> key_laws keq borrow qeq -> hash_laws borrow qeq hash qhash ->
  forall (degree : N) (fuel : nat), supported ubits degree -> 2 * digits degree < fuel ->
  counts_exact tkids (@hh_new ubits K V degree) hh_clone hh_drop
    (hh_step ubits dbg keq borrow qeq hash qhash fuel) hh_roots
    (@nil (K * V)) (ht_call_spec keq borrow qeq) always.
Proof.
  intros K V Q ubits dbg keq borrow qeq hash qhash Hub KL HL degree fuel (b & Hb & -> & Hd) Hf.
  rewrite digits_D in *.
  eapply (counts_exact_ok tkids _ _ _ _ _ (hhrep ubits b keq hash) _ _ _ 1 (ht_cost b hash qhash)).
  - now apply (hh_new_ok ubits dbg b Hb Hd Hub keq borrow qeq hash qhash KL HL fuel Hf).
  - apply hh_clone_ok.
  - now apply hh_drop_ok.
  - intros. now apply hh_step_ok.
  - apply hh_rep_roots.
Qed.
Print Assumptions C38_hash_map_counts_exact.

(** ** C40: threads *)
Theorem C40_hash_map_non_interfering : forall (K V Q : Type) (ubits : N) (dbg : bool)
  (keq : K -> K -> bool) (borrow : K -> Q) (qeq : Q -> Q -> bool) (hash : K -> N) (qhash : Q -> N),
  (ubits <= 64)%N -> key_laws keq borrow qeq -> hash_laws borrow qeq hash qhash ->
  forall (degree : N) (fuel : nat), supported ubits degree -> 2 * digits degree < fuel ->
  non_interfering (@hh_new ubits K V degree) hh_clone hh_drop
    (hh_step ubits dbg keq borrow qeq hash qhash fuel)
    (@nil (K * V)) (ht_call_spec keq borrow qeq) always.
Proof.
  intros K V Q ubits dbg keq borrow qeq hash qhash Hub KL HL degree fuel (b & Hb & -> & Hd) Hf.
  rewrite digits_D in *.
  eapply (non_interfering_ok tkids _ _ _ _ hh_roots (hhrep ubits b keq hash) _ _ _ 1 (ht_cost b hash qhash)).
  - now apply (hh_new_ok ubits dbg b Hb Hd Hub keq borrow qeq hash qhash KL HL fuel Hf).
  - apply hh_clone_ok.
  - now apply hh_drop_ok.
  - intros. now apply hh_step_ok.
  - apply hh_rep_roots.
Qed.
Print Assumptions C40_hash_map_non_interfering.

(** Two threads with clones of the same map, one removing, one inserting, both in
    the same bucket. *)
Definition tthreads_main : list (cmd hx_call) :=
  CNew :: map (fun k => COp 0 (TOp (MInsertMut k (N.to_nat k * 10)))) [0; 1; 3]%N ++ [CClone 0].
Definition tthreads_jobs : list (job (Op := hx_call)) :=
  [mkJob [0] [COp 0 (TOp (MRemoveMut 0%N)); COp 0 (TOp (MGet 1%N)); COp 0 (TCount (fun _ => true)); CDrop 0];
   mkJob [1] [COp 0 (TOp (MInsertMut 2%N 20)); COp 0 (TOp (MGetMut 0%N S)); COp 0 (TOp (MGet 0%N)); COp 0 (TSteps 2); CDrop 0]].

Example tthreads_hypotheses :
  within (@nil (N * nat)) hx_spec always tthreads_main [] /\
  let vs := fst (sclient [] hx_spec tthreads_main []) in
  Permutation (concat (map job_regs tthreads_jobs)) (seq 0 (length vs)) /\
  Forall (job_within [] hx_spec always vs) tthreads_jobs /\
  Forall (fun j => Forall (eq None) (fst (job_spec [] hx_spec vs j))) tthreads_jobs.
Proof.
  split; [vm_compute; repeat split|]. cbn zeta. split; [apply Permutation_refl|].
  split; [|vm_compute; repeat constructor].
  repeat (constructor; [vm_compute; repeat split|]). constructor.
Qed.

(** Strict alternation of the two threads, to the end: the answers are the
    specification's and no cell is left. *)
Example tthreads_run :
  match run [] (hclient hx_new hh_clone hh_drop hx_step tthreads_main []) with
  | Some (h, (rs, _)) =>
      let cf := exec (flat_map (fun _ => [0; 1]) (seq 0 900))
                  (h, map (job_start hx_new hh_clone hh_drop hx_step rs) tthreads_jobs) in
      (map (fun p => match p with Ret r => Some (snd r) | _ => None end) (snd cf),
       forallb (fun x => match x with None => true | Some _ => false end) (fst cf))
  | None => ([], false)
  end =
  ([Some [TObs (MoBool true); TObs (MoVal (Some 10)); TNum 2];
    Some [TObs MoUnit; TObs (MoVal (Some 0)); TObs (MoVal (Some 1)); THints [(4, true); (3, true)]]], true).
Proof. vm_compute. reflexivity. Qed.

(** ** C42: sharing *)

(** A call allocates at most two cells per digit of the hash, plus two for each entry
    whose hash is the same, plus a constant; nothing in the size of the map. *)
Theorem C42_hash_map_allocates : forall (K V Q : Type) (ubits : N) (dbg : bool)
  (keq : K -> K -> bool) (borrow : K -> Q) (qeq : Q -> Q -> bool) (hash : K -> N) (qhash : Q -> N),
  (ubits <= 64)%N -> key_laws keq borrow qeq -> hash_laws borrow qeq hash qhash ->
  forall (degree : N) (fuel : nat), supported ubits degree -> 2 * digits degree < fuel ->
  allocates_at_most (@hh_new ubits K V degree) hh_clone hh_drop
    (hh_step ubits dbg keq borrow qeq hash qhash fuel)
    (@nil (K * V)) (ht_call_spec keq borrow qeq) always
    (fun o m => let clashes h := length (filter (fun x => (hash (fst x) =? h)%N) m) in
                match o with
                | TOp (MInsert k _) | TOp (MInsertMut k _) => 2 * digits degree + 2 * clashes (hash k) + 6
                | TOp (MRemove q) | TOp (MRemoveMut q) => 2 * digits degree + 2 * clashes (qhash q) + 3
                | TOp (MGetMut q _) => digits degree + 2 * clashes (qhash q) + 8
                | _ => 0
                end).
Proof.
  intros K V Q ubits dbg keq borrow qeq hash qhash Hub KL HL degree fuel (b & Hb & -> & Hd) Hf.
  rewrite digits_D in *.
  eapply (allocates_ok tkids _ _ _ _ (hhrep ubits b keq hash) _ _ _ 1 (ht_cost b hash qhash)).
  - now apply (hh_new_ok ubits dbg b Hb Hd Hub keq borrow qeq hash qhash KL HL fuel Hf).
  - apply hh_clone_ok.
  - now apply hh_drop_ok.
  - intros. now apply hh_step_ok.
Qed.
Print Assumptions C42_hash_map_allocates.

(** The hypotheses are met, with a map of which another version is alive; for
    distinct hashes the number of clashes is at most one. *)
Example C42_hash_map_case : exists m,
  nth_error (fst (sclient (@nil (N * nat)) hx_spec tthreads_main [])) 1 = Some (Some m) /\ length m = 3 /\
  always (S := fmap N nat) (@TOp N nat N (MInsert 7%N 70)) m /\
  length (filter (fun x => (hx_hash (fst x) =? hx_hash 7)%N) m) = 0.
Proof. eexists. repeat split. Qed.
