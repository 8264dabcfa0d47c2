(** Property C43: the maps after user code has panicked in the middle of a call. *)
From Coq Require Import List NArith Arith Bool Lia Permutation.
From Verif Require Import Base Spec SpecMap SpecOrd Sim ListModel SparseModel HashModel HashProofs HashHist HashExtra HashExtraProofs
  Prop_Hash RBModel RBProofs RBHist Prop_RB HashIter CrashModel CrashProofs.
Import ListNotations.

(** The calls of a history that completed (outcome [Some]), and their answers. *)
Fixpoint done_ops {O X} (ops : list (nat * bool * O)) (outs : list (option X)) : list O :=
  match ops, outs with
  | (_, _, o) :: ops, Some _ :: outs => o :: done_ops ops outs
  | _ :: ops, None :: outs => done_ops ops outs
  | _, _ => []
  end.
Definition done_outs {X} (outs : list (option X)) : list X :=
  flat_map (fun o => match o with Some x => [x] | None => [] end) outs.

Lemma done_ops_completed : forall O X (ops : list (nat * bool * O)) (outs : list (option X)),
  done_ops ops outs = completed ops outs.
Proof. induction ops as [|((n & sh) & o) ops IH]; intros [|[x|] outs]; cbn [done_ops completed]; f_equal; auto. Qed.
Lemma done_outs_answers : forall X (outs : list (option X)), done_outs outs = answers outs.
Proof. induction outs as [|[x|] outs IH]; cbn [done_outs flat_map answers app]; [reflexivity|f_equal|]; exact IH. Qed.

(** ** Red-black maps *)
(** Every call makes a number [calls] of calls to user code, fixed by the map and the
    operation, and if any one of them panics the map is what it was before -- for every
    comparison function, lawful or not, and every tree, reachable or not. *)
Theorem C43_rb_unwind : forall (K V Q : Type) (dbg : bool) (kcmp : K -> K -> comparison) (borrow : K -> Q)
  (qcmp : Q -> Q -> comparison) (shared : bool) (o : map_op K V Q) (m : rbmap K V),
  exists calls, forall n,
    (n < calls -> c_rb_step dbg kcmp borrow qcmp n shared o m = Ok (Unwound m)) /\
    (calls <= n -> c_rb_step dbg kcmp borrow qcmp n shared o m
       = rmap (fun r => Done (n - calls) r) (rb_step dbg kcmp borrow qcmp o m)).
Proof.
  intros. destruct (c_rb_step_ok dbg kcmp borrow qcmp shared o m) as (c & H). exists c. intros n.
  destruct (H n) as (H1 & H2). split; [|exact H1]. intros Hn. destruct (H2 Hn) as (s & E & <-). exact E.
Qed.
Print Assumptions C43_rb_unwind.

(** A history in which any calls panic at any of their calls to user code, the panics being
    caught, answers like the history of the completed calls alone. *)
Theorem C43_rb_history : forall (K V Q : Type) (dbg : bool) (kcmp : K -> K -> comparison) (borrow : K -> Q)
  (qcmp : Q -> Q -> comparison), ord_laws qcmp -> borrow_agrees kcmp borrow qcmp ->
  forall (ops : list (nat * bool * map_op K V Q)), exists m outs,
    c_exec (c_rb_step dbg kcmp borrow qcmp) ops rb_new = Ok (m, outs) /\ length outs = length ops /\
    done_outs outs = snd (exec_s (map_spec (eq_of kcmp) borrow (eq_of qcmp)) (done_ops ops outs) []) /\
    exists outs', exec_m (rb_step dbg kcmp borrow qcmp) (done_ops ops outs) rb_new = Ok (m, outs').
Proof.
  intros K V Q dbg kcmp borrow qcmp OL KB ops.
  assert (Hg : forall ops (m : rbmap K V) fm, rb_rep kcmp m fm -> exists m' outs,
    c_exec (c_rb_step dbg kcmp borrow qcmp) ops m = Ok (m', outs) /\ length outs = length ops /\
    done_outs outs = snd (exec_s (map_spec (eq_of kcmp) borrow (eq_of qcmp)) (done_ops ops outs) fm) /\
    exists outs', exec_m (rb_step dbg kcmp borrow qcmp) (done_ops ops outs) m = Ok (m', outs')).
  { clear ops. induction ops as [|((n & sh) & o) ops IH]; intros m fm HR.
    - exists m, []. repeat split. now exists [].
    - destruct (C43_rb_unwind K V Q dbg kcmp borrow qcmp sh o m) as (c & H). destruct (H n) as (H1 & H2). cbn [c_exec].
      destruct (Nat.lt_ge_cases n c) as [Hn|Hn].
      + rewrite (H1 Hn). cbn [bind]. destruct (IH m fm HR) as (m' & outs & -> & El & Ed & Ex). cbn [bind].
        exists m', (None :: outs). cbn [length]. repeat split; [congruence|exact Ed|exact Ex].
      + rewrite (H2 Hn). destruct (rb_step_ok dbg kcmp borrow qcmp OL KB o m fm HR) as (m1 & E & HR1).
        rewrite E. cbn [rmap bind]. destruct (IH m1 _ HR1) as (m' & outs & -> & El & Ed & outs' & Ex). cbn [bind].
        exists m', (Some (snd (map_spec (eq_of kcmp) borrow (eq_of qcmp) o fm)) :: outs). cbn [length]. split; [reflexivity|].
        split; [congruence|]. cbn [done_ops exec_s exec_m].
        destruct (map_spec (eq_of kcmp) borrow (eq_of qcmp) o fm) as [fm1 x1]. cbn [fst snd] in *.
        split.
        * cbn [done_outs flat_map app]. fold (done_outs outs).
          destruct (exec_s (map_spec (eq_of kcmp) borrow (eq_of qcmp)) (done_ops ops outs) fm1) as [fm2 xs]. cbn [snd] in *. now f_equal.
        * rewrite E. cbn [bind]. rewrite Ex. cbn [bind]. eauto. }
  exact (Hg ops rb_new [] (rb_new_ok kcmp)).
Qed.
Print Assumptions C43_rb_history.

(** ** Hash tries *)
(** How many entries have a key with hash [h]. *)
Definition entries_with {K V} (hash : K -> N) (h : N) (fm : fmap K V) : nat :=
  length (filter (fun x => N.eqb (hash (fst x)) h) fm).
(** The hash of the key of an in-place operation; the others leave the old map alone. *)
Definition in_place {K V Q} (hash : K -> N) (qhash : Q -> N) (o : map_op K V Q) : option N :=
  match o with
  | MInsertMut k _ => Some (hash k)
  | MRemoveMut q => Some (qhash q)
  | MGetMut q _ => Some (qhash q)
  | _ => None
  end.
(** Two or more entries have the hash of the key worked on in place. *)
Definition crowded {K V Q} (hash : K -> N) (qhash : Q -> N) (o : map_op K V Q) (fm : fmap K V) : Prop :=
  exists h, in_place hash qhash o = Some h /\ 2 <= entries_with hash h fm.

Definition goodb {K V Q} (hash : K -> N) (qhash : Q -> N) (o : map_op K V Q) (fm : fmap K V) : bool :=
  match op_hash hash qhash o with Some h => crowd hash h fm <=? 1 | None => true end.
Lemma goodb_false : forall K V Q hash qhash (o : map_op K V Q) fm, goodb hash qhash o fm = false -> crowded hash qhash o fm.
Proof.
  intros K V Q hash qhash o fm H. unfold goodb in H.
  destruct o; cbn [op_hash] in H; try discriminate; apply Nat.leb_gt in H; eexists; split; try reflexivity; exact H.
Qed.

Lemma hm_rep_weak : forall K V Q ubits (dbg : bool) b keq (borrow : K -> Q) qeq hash qhash (m : hmap K V) fm,
  (0 < b)%N -> (2 ^ b <= ubits)%N -> (ubits <= 64)%N -> key_laws keq borrow qeq -> hash_laws borrow qeq hash qhash ->
  hm_rep ubits b keq hash m fm -> @hm_repg ubits b K V keq hash false m fm.
Proof.
  intros K V Q ubits dbg b keq borrow qeq hash qhash m fm Hb Hd Hub KL HL (es & R & H1 & H2 & H3 & H4 & H5).
  exists es. repeat split; auto. now apply (hrepg_mono ubits b).
Qed.

(** What any call leaves on a reachable map if user code panics: the same size and degree, the
    old entries but some of those whose hash the key has, and nothing else.  If at most one
    entry has that hash, nothing is lost.  Otherwise the call completes as it would have. *)
Theorem C43_hash_unwind : forall (K V Q : Type) (ubits : N) (dbg : bool)
  (keq : K -> K -> bool) (borrow : K -> Q) (qeq : Q -> Q -> bool) (hash : K -> N) (qhash : Q -> N),
  (ubits <= 64)%N -> key_laws keq borrow qeq -> hash_laws borrow qeq hash qhash ->
  forall (fuel : nat) (degree : N) (m : hmap K V) (fm : fmap K V),
  hm_reached ubits dbg keq borrow qeq hash qhash fuel degree m fm ->
  forall (shared : bool) (o : map_op K V Q), exists calls, forall n,
    (n < calls -> exists m', c_hm_step ubits dbg keq borrow qeq hash qhash fuel n shared o m = Ok (Unwound m') /\
       hm_len m' = hm_len m /\ hm_degree m' = hm_degree m /\
       match in_place hash qhash o with
       | None => m' = m
       | Some h => exists l lost, hm_entries m' = Ok l /\ Permutation (l ++ lost) fm /\
           (forall x, In x lost -> hash (fst x) = h) /\ (entries_with hash h fm <= 1 -> lost = [])
       end) /\
    (calls <= n -> c_hm_step ubits dbg keq borrow qeq hash qhash fuel n shared o m
       = rmap (fun r => Done (n - calls) r) (hm_step ubits dbg keq borrow qeq hash qhash fuel o m)).
Proof.
  intros K V Q ubits dbg keq borrow qeq hash qhash Hub KL HL fuel degree m fm H shared o.
  destruct (reached_rep _ _ _ _ _ _ _ _ _ _ _ _ _ _ Hub KL HL H) as (b & Hb & -> & Hd & Hf & Hr).
  apply (hm_rep_weak K V Q ubits dbg b keq borrow qeq hash qhash m fm Hb Hd Hub KL HL) in Hr.
  destruct (c_hm_step_ok ubits dbg b Hb Hd Hub keq borrow qeq hash qhash KL HL fuel Hf shared o m fm Hr) as (c & Hc).
  exists c. intros n. destruct (Hc n) as (H1 & H2). split; [|exact H1]. intros Hn. destruct (H2 Hn) as (m' & E & Hp).
  exists m'. split; [exact E|]. unfold opost in Hp.
  assert (Hm : forall h, mpost ubits b keq hash h m fm m' -> hm_len m' = hm_len m /\ hm_degree m' = hm_degree m /\
    exists l lost, hm_entries m' = Ok l /\ Permutation (l ++ lost) fm /\
           (forall x, In x lost -> hash (fst x) = h) /\ (entries_with hash h fm <= 1 -> lost = [])).
  { intros h (Hs & Hde & (lost & Hpl & Hl) & Hli & Hw). split; [exact Hs|]. split; [exact Hde|].
    exists (map kv (n_entries (hm_root m'))), lost. split.
    { apply hm_entries_stale; [exact Hli|]. apply Permutation_length in Hpl. rewrite app_length, map_length in Hpl.
      destruct Hr as (es & _ & _ & _ & _ & Hsm & _). lia. }
    split; [exact Hpl|].
    split; [exact Hl|]. intros Hle. destruct (Hw Hle) as (es & R & _ & Hpe & _).
    apply length_zero_iff_nil. apply Permutation_length in Hpl. apply Permutation_length in Hpe.
    rewrite app_length, map_length in Hpl. rewrite map_length in Hpe.
    rewrite (hrep_entries ubits b _ _ _ _ R) in Hpe. lia. }
  destruct o; cbn [op_hash in_place] in *; try (subst m'; repeat split; fail); exact (Hm _ Hp).
Qed.
Print Assumptions C43_hash_unwind.

(** A history with caught panics answers like the history of the completed calls alone, unless
    a call was interrupted while two or more entries had the hash of its key; iteration agrees
    as well. *)
Theorem C43_hash_history : forall (K V Q : Type) (ubits : N) (dbg : bool)
  (keq : K -> K -> bool) (borrow : K -> Q) (qeq : Q -> Q -> bool) (hash : K -> N) (qhash : Q -> N),
  (ubits <= 64)%N -> key_laws keq borrow qeq -> hash_laws borrow qeq hash qhash ->
  forall (degree : N) (fuel : nat), supported ubits degree -> 2 * digits degree < fuel ->
  forall (ops : list (nat * bool * map_op K V Q)), exists m0, hm_new_with_degree ubits degree = Ok m0 /\
  let run := c_exec (c_hm_step ubits dbg keq borrow qeq hash qhash fuel) in
  let spec := exec_s (map_spec keq borrow qeq) in
  let agrees ops m outs := run ops m0 = Ok (m, outs) /\ length outs = length ops /\
        done_outs outs = snd (spec (done_ops ops outs) []) /\
        exists l, hm_entries m = Ok l /\ Permutation l (fst (spec (done_ops ops outs) [])) in
  (exists m outs, agrees ops m outs) \/
  (exists ops1 n sh o ops2 m1 outs1 m2, ops = ops1 ++ (n, sh, o) :: ops2 /\ agrees ops1 m1 outs1 /\
     c_hm_step ubits dbg keq borrow qeq hash qhash fuel n sh o m1 = Ok (Unwound m2) /\
     crowded hash qhash o (fst (spec (done_ops ops1 outs1) []))).
Proof.
  intros K V Q ubits dbg keq borrow qeq hash qhash Hub KL HL degree fuel (b & Hb & -> & Hd) Hf ops.
  rewrite digits_D in Hf.
  destruct (hm_new_ok (strict:=false) (V:=V) ubits dbg b Hb Hd Hub keq borrow qeq hash qhash KL HL fuel Hf) as (m0 & E0 & HR0).
  exists m0. split; [exact E0|].
  set (cs := c_hm_step ubits dbg keq borrow qeq hash qhash fuel).
  assert (Ha : forall ops m outs,
    as_completed cs (map_spec keq borrow qeq) (@hm_repg ubits b K V keq hash false) ops m0 [] m outs ->
    c_exec cs ops m0 = Ok (m, outs) /\ length outs = length ops /\
        done_outs outs = snd (exec_s (map_spec keq borrow qeq) (done_ops ops outs) []) /\
        exists l, hm_entries m = Ok l /\ Permutation l (fst (exec_s (map_spec keq borrow qeq) (done_ops ops outs) []))).
  { clear ops. intros ops m outs (E & El & Eo & R). rewrite done_outs_answers, done_ops_completed. repeat split; auto.
    destruct (hm_entries_ok (strict:=false) ubits dbg b Hb Hd Hub keq borrow qeq hash qhash KL HL fuel Hf m _ R) as (l & E' & Hp & _).
    eauto. }
  destruct (crash_history cs (hm_step ubits dbg keq borrow qeq hash qhash fuel) (map_spec keq borrow qeq)
    (@hm_repg ubits b K V keq hash false) (goodb hash qhash)) with (ops := ops) (m := m0) (s := @nil (K * V))
    as [(m & outs & H)|(ops1 & n & sh & o & ops2 & m1 & outs1 & m2 & -> & H & E & Eg)].
  - intros sh o m fm HR. eapply cruns_weaken;
      [apply (c_hm_step_ok ubits dbg b Hb Hd Hub keq borrow qeq hash qhash KL HL fuel Hf sh o m fm HR)|reflexivity|].
    intros m' Hp Hg. unfold opost, goodb in *. destruct (op_hash hash qhash o) as [h|].
    + apply Nat.leb_le in Hg. destruct Hp as (_ & _ & _ & _ & Hw). auto.
    + now subst m'.
  - intros o m fm HR. exact (hm_step_ok (strict:=false) ubits dbg b Hb Hd Hub keq borrow qeq hash qhash KL HL fuel Hf o m fm HR).
  - exact HR0.
  - left. exists m, outs. now apply Ha.
  - right. exists ops1, n, sh, o, ops2, m1, outs1, m2. split; [reflexivity|]. split; [now apply Ha|]. split; [exact E|].
    apply goodb_false. now rewrite done_ops_completed.
Qed.
Print Assumptions C43_hash_history.

(** Without collisions -- keys of equal hash are equal -- no panic in user code does harm. *)
Theorem C43_hash_history_no_collisions : forall (K V Q : Type) (ubits : N) (dbg : bool)
  (keq : K -> K -> bool) (borrow : K -> Q) (qeq : Q -> Q -> bool) (hash : K -> N) (qhash : Q -> N),
  (ubits <= 64)%N -> key_laws keq borrow qeq -> hash_laws borrow qeq hash qhash ->
  (forall a b, hash a = hash b -> keq a b = true) ->
  forall (degree : N) (fuel : nat), supported ubits degree -> 2 * digits degree < fuel ->
  forall (ops : list (nat * bool * map_op K V Q)), exists m0 m outs l, hm_new_with_degree ubits degree = Ok m0 /\
    c_exec (c_hm_step ubits dbg keq borrow qeq hash qhash fuel) ops m0 = Ok (m, outs) /\ length outs = length ops /\
    done_outs outs = snd (exec_s (map_spec keq borrow qeq) (done_ops ops outs) []) /\
    hm_entries m = Ok l /\ Permutation l (fst (exec_s (map_spec keq borrow qeq) (done_ops ops outs) [])).
Proof.
  intros K V Q ubits dbg keq borrow qeq hash qhash Hub KL HL Hinj degree fuel Hs Hf ops.
  destruct (C43_hash_history K V Q ubits dbg keq borrow qeq hash qhash Hub KL HL degree fuel Hs Hf ops)
    as (m0 & E0 & [(m & outs & E & El & Eo & l & Ee & Hp)|(ops1 & n & sh & o & ops2 & m1 & outs1 & m2 & -> & (E & _) & E2 & h & Eh & Hc)]).
  - exists m0, m, outs, l. auto 6.
  - exfalso. set (sops := done_ops ops1 outs1) in *. clearbody sops.
    assert (Hu : unique_keys keq (fst (exec_s (map_spec keq borrow qeq) sops []))).
    { destruct Hs as (b & Hb & -> & Hd). rewrite digits_D in Hf.
      destruct (hash_history (strict:=true) ubits dbg b Hb Hd Hub keq borrow qeq hash qhash KL HL fuel Hf sops)
        as (? & ? & _ & _ & (es & _ & _ & _ & Hu & _)). exact Hu. }
    revert Hc. clear - Hu Hinj. unfold entries_with. induction Hu as [|x fm Hx Hfm IH]; cbn [filter length]; [lia|].
    destruct (N.eqb_spec (hash (fst x)) h) as [Eh|]; [|exact IH]. cbn [length].
    assert (Hz : filter (fun y : K * V => (hash (fst y) =? h)%N) fm = []).
    { clear IH. induction fm as [|y fm IH]; [reflexivity|]. cbn [filter].
      destruct (N.eqb_spec (hash (fst y)) h) as [Ey|]; [|apply IH; [|now inversion Hfm]; now inversion Hx].
      exfalso. inversion Hx as [|? ? H1 _]. subst. rewrite (Hinj (fst x) (fst y)) in H1 by congruence. discriminate. }
    rewrite Hz. simpl. lia.
Qed.
Print Assumptions C43_hash_history_no_collisions.

(** With a collision there is always harm: on every reachable map in which two or more entries
    have the hash of [q], a [remove_mut] or [get_mut] of [q] whose first key comparison panics
    leaves one entry fewer in the trie and the size as it was.  Present or absent, [q]'s own
    entry need not be the one lost. *)
Theorem C43_hash_crowded_refuted : forall (K V Q : Type) (ubits : N) (dbg : bool)
  (keq : K -> K -> bool) (borrow : K -> Q) (qeq : Q -> Q -> bool) (hash : K -> N) (qhash : Q -> N),
  (ubits <= 64)%N -> key_laws keq borrow qeq -> hash_laws borrow qeq hash qhash ->
  forall (fuel : nat) (degree : N) (m : hmap K V) (fm : fmap K V),
  hm_reached ubits dbg keq borrow qeq hash qhash fuel degree m fm ->
  forall q, 2 <= entries_with hash (qhash q) fm ->
  forall (shared : bool) (f : V -> V) o, o = MRemoveMut q \/ o = MGetMut q f ->
  exists m', c_hm_step ubits dbg keq borrow qeq hash qhash fuel 1 shared o m = Ok (Unwound m') /\
    hm_len m' = length fm /\ exists l, hm_entries m' = Ok l /\ S (length l) = length fm.
Proof.
  intros K V Q ubits dbg keq borrow qeq hash qhash Hub KL HL fuel degree m fm H q Hc shared f o Ho.
  destruct (reached_rep _ _ _ _ _ _ _ _ _ _ _ _ _ _ Hub KL HL H) as (b & Hb & -> & Hd & Hf & Hr).
  apply (hm_rep_weak K V Q ubits dbg b keq borrow qeq hash qhash m fm Hb Hd Hub KL HL) in Hr.
  destruct Hr as (es & R & Hho & Hp & Hu & Hs & Hde).
  assert (Hrange : forall e, In e es -> (e_hash e < 2 ^ 64)%N).
  { intros e He. rewrite (Hho e He), (hl_borrow _ _ _ _ HL). apply (hl_range _ _ _ _ HL). }
  assert (Hna : ~ @alone K V (qhash q) es).
  { unfold alone, uniq. rewrite <- (crowd_alone hash (qhash q) es fm Hho Hp). unfold crowd, entries_with in *. lia. }
  assert (Hl : length es = length fm) by (rewrite <- (Permutation_length Hp); now rewrite map_length).
  destruct Ho as [-> | ->]; cbn [c_hm_step].
  - destruct (c_hn_remove_crowded ubits dbg b Hb Hd Hub borrow qeq q (qhash q) (D b) 0 (hm_root m) es fuel R eq_refl
      ltac:(lia) (on_path_0 b _ es) Hrange (hl_range _ _ _ _ HL q) Hna) as (n' & E & Hn & Hli).
    unfold c_hm_remove_mut, ucall. rewrite Hde, E. cbn [cbind bind]. eexists. split; [reflexivity|].
    cbn [hm_with hm_len hm_size hm_root]. unfold hm_len. cbn [hm_size]. split; [congruence|].
    exists (map kv (n_entries n')). split; [|rewrite map_length; congruence].
    apply hm_entries_stale; unfold hm_with; cbn [hm_root hm_size]; [exact Hli|lia].
  - destruct (c_hn_get_mut_crowded ubits dbg b Hb Hd Hub borrow qeq shared q f (qhash q) (D b) 0 (hm_root m) es fuel R eq_refl
      ltac:(lia) (on_path_0 b _ es) Hrange (hl_range _ _ _ _ HL q) Hna) as (n' & E & Hn & Hli).
    unfold c_hm_get_mut, ucall. rewrite Hde, E. cbn [cbind bind]. eexists. split; [reflexivity|].
    cbn [hm_with hm_len hm_size hm_root]. unfold hm_len. cbn [hm_size]. split; [congruence|].
    exists (map kv (n_entries n')). split; [|rewrite map_length; congruence].
    apply hm_entries_stale; unfold hm_with; cbn [hm_root hm_size]; [exact Hli|lia].
Qed.
Print Assumptions C43_hash_crowded_refuted.

Local Open Scope N_scope.
Definition exc_ops : list (map_op (N * N) N N) := [MInsertMut (2, 0) 10; MInsertMut (3, 0) 11].

(** The full claim -- a caught panic never changes what the map answers -- is false.  Keys 2
    and 3 have one hash; [get_mut] of 2 is interrupted at its first comparison.  The map still
    says size 2 but does not find 3, and removing 2 from it hits the library's
    [unreachable!]. *)
Theorem C43_hash_caught_panic_refuted : exists (m m' : hmap (N * N) N) fm,
  hm_reached 64 true ex_keq fst N.eqb ex_hash ex_qhash 129 64 m fm /\
  c_hm_step 64 true ex_keq fst N.eqb ex_hash ex_qhash 129 1 false (MGetMut 2 (N.add 1)) m = Ok (Unwound m') /\
  hm_get 64 true fst N.eqb ex_qhash 129 m 3 = Ok (Some 11) /\
  hm_get 64 true fst N.eqb ex_qhash 129 m' 3 = Ok None /\
  hm_len m' = 2%nat /\ hm_entries m' = Ok [((2, 0), 10)] /\
  hm_remove_mut 64 true fst N.eqb ex_qhash 129 m' 2 = Panic.
Proof.
  eexists _, _, _. split.
  - split; [exists 6; repeat split; discriminate|]. split; [vm_compute; repeat constructor|].
    eexists _, exc_ops, _. split; [reflexivity|]. split; [vm_compute; reflexivity|reflexivity].
  - split; [vm_compute; reflexivity|]. repeat split; vm_compute; reflexivity.
Qed.
Print Assumptions C43_hash_caught_panic_refuted.

(** A map in reach of [C43_hash_unwind] and [C43_hash_crowded_refuted]; the interrupted call
    at each of its crash points. *)
Example C43_example_crowded : exists (m : hmap (N * N) N) fm,
  hm_reached 64 true ex_keq fst N.eqb ex_hash ex_qhash 129 64 m fm /\
  (2 <= entries_with ex_hash (ex_qhash 2) fm)%nat /\
  map (fun n => match c_hm_step 64 true ex_keq fst N.eqb ex_hash ex_qhash 129 n false (MRemoveMut 2) m with
                | Ok (Unwound m') => Some (hm_entries m')
                | _ => None
                end) [0%nat; 1%nat; 2%nat; 3%nat]
  = [Some (Ok [((3, 0), 11); ((2, 0), 10)]); Some (Ok [((2, 0), 10)]); Some (Ok []); None].
Proof.
  eexists _, _. split.
  - split; [exists 6; repeat split; discriminate|]. split; [vm_compute; repeat constructor|].
    eexists _, exc_ops, _. split; [reflexivity|]. split; [vm_compute; reflexivity|reflexivity].
  - split; vm_compute; [repeat constructor|reflexivity].
Qed.

(** A history with interrupted calls in which no call was crowded, and one on a red-black
    map. *)
Definition exc_hist : list (nat * bool * map_op (N * N) N N) :=
  [(9%nat, false, MInsertMut (2, 0) 10); (9%nat, false, MInsertMut (4, 0) 11);
   (1%nat, false, MRemoveMut 2); (2%nat, true, MGetMut 4 (N.add 1));
   (0%nat, false, MInsertMut (9, 0) 5); (9%nat, true, MGetMut 4 (N.add 1)); (9%nat, false, MGet 4); (9%nat, false, MSize)].
Example C43_example_history :
  (let! m0 := hm_new_with_degree 64 64 in
   let! (m, outs) := c_exec (c_hm_step 64 true ex_keq fst N.eqb ex_hash ex_qhash 129) exc_hist m0 in Ok outs)
  = Ok [Some MoUnit; Some MoUnit; None; None; None; Some (MoVal (Some 11)); Some (MoVal (Some 12)); Some (MoNat 2)].
Proof. vm_compute. reflexivity. Qed.
Example C43_example_rb :
  (let! (m, outs) := c_exec (c_rb_step true N.compare (fun k => k) N.compare)
     [(0%nat, false, MInsertMut 5 50); (1%nat, false, MInsertMut 3 30); (0%nat, false, MInsertMut 7 70); (1%nat, false, MInsertMut 7 70);
      (1%nat, false, MRemoveMut 3); (0%nat, true, MGetMut 7 (N.add 1)); (9%nat, true, MGetMut 7 (N.add 1)); (9%nat, false, MSize)] rb_new in
   Ok outs)
  = Ok [Some MoUnit; Some MoUnit; None; Some MoUnit; None; None; Some (MoVal (Some 70)); Some (MoNat 3)].
Proof. vm_compute. reflexivity. Qed.
(** Hashes without collisions exist. *)
Example C43_example_no_collisions : hash_laws (fun k : bool => k) Bool.eqb N.b2n N.b2n /\
  (forall a b, N.b2n a = N.b2n b -> Bool.eqb a b = true).
Proof.
  split; [constructor|]; [reflexivity| | |]; intros.
  - now apply Bool.eqb_prop in H as ->.
  - destruct q; reflexivity.
  - destruct a, b; try reflexivity; discriminate.
Qed.
