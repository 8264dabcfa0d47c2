(** * Property C54: caught panics of user code on the shared heap

    C43 says what a caught panic of user code leaves behind in the one map it hits, as a value.
    Here the maps share cells: a call that is cut short holds nodes of which other versions may
    hold the same ones, and has copied some of them.  The programs are those of HeapCrashRB.v; the
    property is [unwinding_contained] of HeapCrash.v. *)
From Coq Require Import List NArith Arith Lia Bool Permutation.
From Verif Require Import Base Spec Sim SpecMap SpecOrd RBModel RBHist Prop_RB CrashModel
  HeapModel HeapProofs HeapSafe HeapClient HeapWorld HeapRB HeapRBProofs HeapRBMap Prop_HeapRB
  HeapCrash HeapCrashRB HeapCrashRBProofs HeapCrashRBMap.
Import ListNotations.

(** ** RedBlackTreeMap *)
(** [rb_after] spelled out: a call [(n, o)], the [n]-th user call of which unwinds if it comes to
    that, either completes as specified, or unwinds and leaves the value it had; and it can only
    unwind if it makes more than [n] user calls, of which there are at most one for each of the
    [2 * log2 (size + 1)] levels and two clones. *)
Theorem C54_rb_map_unwinding : forall (K V Q : Type) (dbg : bool)
  (kcmp : K -> K -> comparison) (borrow : K -> Q) (qcmp : Q -> Q -> comparison),
  ord_laws qcmp -> borrow_agrees kcmp borrow qcmp ->
  unwinding_contained rkids (@hb_new K V) hb_clone hb_drop (xb_step dbg kcmp borrow qcmp) hb_roots
    (@nil (K * V))
    (fun '(n, o) fm fm' x =>
       match x with
       | Some y => (fm', y) = map_spec (eq_of kcmp) borrow (eq_of qcmp) o fm
       | None => fm' = fm /\ n < 2 * Nat.log2 (length fm + 1) + 2
       end).
Proof.
  intros K V Q dbg kcmp borrow qcmp OL KB.
  eapply (unwinding_contained_ok rkids _ _ _ _ _ (hbrep kcmp) _ _ (@length (K * V)) 0 rb_xcost).
  - apply hb_new_ok.
  - apply hb_clone_ok.
  - apply hb_drop_ok.
  - intros [n o] m fm G R. eapply safe_mono; [apply le_n| |apply (xb_step_ok dbg kcmp borrow qcmp OL KB (n, o) m fm G R)].
    intros r G' (fm' & H & R'). exists fm'. auto.
  - intros [n o] fm fm' x H. apply (rb_after_size kcmp borrow qcmp (n, o) fm fm' x H).
  - apply rb_xcost_mono.
  - apply hb_rep_roots.
Qed.
Print Assumptions C54_rb_map_unwinding.

(** Seven keys, a clone, and then panics in both: in the third comparison of an insertion in
    place, after two shared nodes have been copied; in the second comparison of a removal; in the
    clone of the key of a shared entry; in an insertion that works on a clone of its own.  The
    calls before, between and after them answer as if those had not been made, and once
    everything is dropped no cell is left. *)
Notation mop := (map_op nat nat nat).
Definition whole (o : mop) : nat * mop := (20, o).
Definition rb_crash_example : list (cmd (nat * mop)) :=
  CNew :: map (fun k => COp 0 (whole (MInsertMut k (10 * k)))) [4; 2; 6; 1; 3; 5; 7] ++
  [CClone 0; COp 0 (2, MInsertMut 8 80); COp 0 (1, MRemoveMut 1); COp 1 (3, MGetMut 1 S);
   COp 1 (1, MInsert 9 90); COp 0 (whole (MGet 8)); COp 0 (whole (MGet 1)); COp 1 (whole (MGet 1));
   COp 0 (whole (MInsertMut 8 81)); COp 1 (whole (MGetMut 1 S)); COp 1 (2, MGet 7);
   COp 0 (whole (MGet 1)); COp 1 (whole (MGet 1)); COp 1 (whole (MGet 8)); COp 0 (whole MSize); COp 1 (whole MSize)].

Example rb_crash_example_runs :
  match run [] (hclient hb_new hb_clone hb_drop (xb_step true Nat.compare (fun k => k) Nat.compare)
                  (rb_crash_example ++ [CDrop 0; CDrop 1]) []) with
  | Some (h, (_, out)) => (skipn 7 out, forallb (fun x => match x with None => true | Some _ => false end) h)
  | None => ([], false)
  end =
  ([None; None; None; None; Some (MoVal None); Some (MoVal (Some 10)); Some (MoVal (Some 10));
    Some MoUnit; Some (MoVal (Some 10)); None;
    Some (MoVal (Some 10)); Some (MoVal (Some 11)); Some (MoVal None); Some (MoNat 8); Some (MoNat 7)], true).
Proof. vm_compute. reflexivity. Qed.

(** Without another version the entry is not shared, nothing is cloned and the same call of
    get_mut completes. *)
Example rb_crash_unshared :
  match run [] (hclient hb_new hb_clone hb_drop (xb_step true Nat.compare (fun k => k) Nat.compare)
                  [CNew; COp 0 (whole (MInsertMut 1 10)); COp 0 (1, MGetMut 1 S); CClone 0; COp 0 (1, MGetMut 1 S);
                   COp 0 (2, MGetMut 1 S); COp 0 (3, MGetMut 1 S); COp 1 (whole (MGet 1))] []) with
  | Some (_, (_, out)) => out
  | None => []
  end = [Some MoUnit; Some (MoVal (Some 10)); None; None; Some (MoVal (Some 11)); Some (MoVal (Some 11))].
Proof. vm_compute. reflexivity. Qed.

(** Two threads with a version each, panicking in turn. *)
Example rb_crash_threads :
  let step := xb_step true Nat.compare (fun k : nat => k) Nat.compare in
  let jobs := [mkJob [0] [COp 0 (1, MRemoveMut 6); COp 0 (whole (MRemoveMut 6)); COp 0 (0, MInsert 0 0); COp 0 (whole (MGet 4)); CDrop 0];
               mkJob [1] [COp 0 (2, MGetMut 4 S); COp 0 (1, MInsertMut 5 50); COp 0 (whole (MGetMut 4 S)); COp 0 (whole (MGet 4)); COp 0 (whole (MGet 6)); CDrop 0]] in
  match run [] (hclient hb_new hb_clone hb_drop step
                  (CNew :: map (fun k => COp 0 (whole (MInsertMut k (10 * k)))) [4; 2; 6; 1; 3] ++ [CClone 0]) []) with
  | Some (h, (rs, _)) =>
      let cf := exec (flat_map (fun _ => [0; 1]) (seq 0 150)) (h, map (job_start hb_new hb_clone hb_drop step rs) jobs) in
      (map (fun p => match p with Ret r => Some (snd r) | _ => None end) (snd cf),
       forallb (fun x => match x with None => true | Some _ => false end) (fst cf))
  | None => ([], false)
  end =
  ([Some [None; Some (MoBool true); None; Some (MoVal (Some 40))];
    Some [None; None; Some (MoVal (Some 40)); Some (MoVal (Some 41)); Some (MoVal (Some 60))]], true).
Proof. vm_compute. reflexivity. Qed.
