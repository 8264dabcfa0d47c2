(** Property theorems about Vector: C07-C11 and the Vector parts of C33 and C44.

    Parameters everywhere: [ubits] is usize::BITS, [dbg] says whether overflow checks and
    debug assertions are compiled in, [bits] is the argument of new_with_bits.
    [vec_limit] is the number of elements up to which the capacity computation can be
    represented: without overflow checks 2^ubits - 1, with them 2^(bits * k) for the
    largest k such that bits * k < ubits (C11 shows that this is exact). *)
From Coq Require Import List NArith ZArith Arith Bool Lia.
From Verif Require Import Base Spec Sim VectorModel VectorProofs VectorOps VectorIter VectorHist.
Import ListNotations.
Local Open Scope N_scope.

(** C07.  Any history of vector operations returns what the same history on an ordinary
    sequence returns, and what iteration then yields is that sequence. *)
Theorem C07_vector_history : forall (T : Type) (ubits : N) (dbg : bool) (bits : N),
  8 <= ubits -> 0 < bits < ubits ->
  forall ops : list (vec_op T),
  stays_within (fun s => N.of_nat (length s)) (vec_limit ubits dbg bits) vec_spec ops [] ->
  exists v0 v, v_new_with_bits bits = Ok v0 /\
    exec_m (v_step ubits dbg) ops v0 = Ok (v, snd (exec_s vec_spec ops [])) /\
    v_elems ubits dbg v = Ok (fst (exec_s vec_spec ops [])).
Proof.
  intros T ubits dbg bits Hu [Hb Hbu] ops Hw.
  destruct (vector_history ubits dbg bits Hu Hb Hbu ops Hw) as (v0 & v & E0 & E & Hr).
  exists v0, v. split; [exact E0|]. split; [exact E|].
  apply (v_elems_ok ubits dbg bits Hu Hb Hbu v _ Hr).
  pose proof (stays_within_last _ _ _ _ _ _ _ _ Hw) as H.
  pose proof (limit_lt ubits dbg bits Hu Hb Hbu). unfold len. cbv beta in H. lia.
Qed.
Print Assumptions C07_vector_history.

Example C07_case : exists v,
  stays_within (fun s : list nat => N.of_nat (length s)) (vec_limit 64 true 1) vec_spec
    [VExtend [1; 2; 3; 4; 5]%nat; VDrop; VSet 1 9%nat; VGetMut 3 S; VGet 3; VIter [false; true; true; false; false]] [] /\
  exec_m (v_step 64 true)
    [VExtend [1; 2; 3; 4; 5]%nat; VDrop; VSet 1 9%nat; VGetMut 3 S; VGet 3; VIter [false; true; true; false; false]]
    (mkV (VLeaf []) 1 0)
  = Ok (v, [OUnit; OBool true; OBool true; OBool true; OElem (Some 5%nat);
            OSteps [(4, Some 1); (3, Some 5); (2, Some 3); (1, Some 9); (0, None)]%nat]).
Proof.
  eexists. split.
  - vm_compute. intuition congruence.
  - vm_compute. reflexivity.
Qed.

(** C08.  Bounds are exact. *)
Theorem C08_vector_bounds : forall (T : Type) (ubits : N) (dbg : bool) (bits : N),
  8 <= ubits -> 0 < bits < ubits ->
  forall (v : rvec T) (l : list T), vec_reached ubits dbg bits v l ->
  forall (i : N),
  let inside := i < N.of_nat (length l) in
  (inside -> exists x, nth_error l (N.to_nat i) = Some x /\
       v_get ubits dbg v i = Ok (Some x) /\ v_index ubits dbg v i = Ok x) /\
  (~ inside -> v_get ubits dbg v i = Ok None /\ v_index ubits dbg v i = Panic /\
       (forall f, v_get_mut ubits dbg v i f = Ok (v, false) /\ v_index_mut ubits dbg v i f = Panic) /\
       (forall x, v_set ubits dbg v i x = Ok None /\ v_set_mut ubits dbg v i x = Ok (v, false))) /\
  (inside -> forall x, exists v', v_set ubits dbg v i x = Ok (Some v') /\
       v_set_mut ubits dbg v i x = Ok (v', true)) /\
  (forall f, inside -> exists v',
       v_index_mut ubits dbg v i f = Ok v' /\ v_get_mut ubits dbg v i f = Ok (v', true)).
Proof.
  intros T ubits dbg bits Hu [Hb Hbu] v l H i inside. subst inside.
  destruct (reached_rep ubits dbg bits Hu Hb Hbu v l H) as (Hr & Hl & Hlt).
  pose proof (v_get_ok ubits dbg bits Hu Hb Hbu v l i Hr Hlt) as Hg.
  fold (len l). split; [|split; [|split]].
  - intros Hi. unfold at_N, in_range in Hg. fold (len l) in Hg.
    destruct (N.ltb_spec i (len l)); [|lia].
    destruct (nth_error l (N.to_nat i)) as [x|] eqn:Ex.
    + exists x. unfold v_index. rewrite Hg. auto.
    + apply nth_error_None in Ex. unfold len in *. lia.
  - intros Hi. unfold at_N, in_range in Hg. fold (len l) in Hg.
    destruct (N.ltb_spec i (len l)) as [|Hge]; [lia|].
    destruct Hr as (_ & Elen & _).
    assert (Hx : (v_length v <=? i) = true) by (apply N.leb_le; lia).
    unfold v_index, v_index_mut, v_set, v_set_mut, v_get_mut. rewrite Hg, Hx. cbn. auto.
  - intros Hi x. destruct (v_set_mut_ok ubits dbg bits Hu Hb Hbu v l i x Hr Hl) as (v' & E & _).
    unfold in_range in E. fold (len l) in E. destruct (N.ltb_spec i (len l)); [|lia].
    exists v'. unfold v_set. rewrite E. auto.
  - intros f Hi. destruct (v_get_mut_ok ubits dbg bits Hu Hb Hbu v l i f Hr Hlt) as (v' & E & _).
    unfold in_range in E. fold (len l) in E. destruct (N.ltb_spec i (len l)); [|lia].
    exists v'. unfold v_index_mut. rewrite E. auto.
Qed.
Print Assumptions C08_vector_bounds.

(** C09.  Double-ended iteration of every reachable vector, in any order of calls. *)
Theorem C09_vector_double_ended : forall (T : Type) (ubits : N) (dbg : bool) (bits : N),
  8 <= ubits -> 0 < bits < ubits ->
  forall (v : rvec T) (l : list T), vec_reached ubits dbg bits v l ->
  forall ds : list bool,
  runs2 (vi_next ubits dbg) (vi_next_back ubits dbg) (vi_size_hint ubits dbg) ds (vi_new v)
  = Ok (de_spec ds l).
Proof.
  intros T ubits dbg bits Hu [Hb Hbu] v l H ds.
  destruct (reached_rep ubits dbg bits Hu Hb Hbu v l H) as (Hr & Hl & Hlt).
  exact (vi_runs2 ubits dbg bits Hu Hb Hbu v l Hr Hlt ds).
Qed.
Print Assumptions C09_vector_double_ended.

(** C10.  All leaves are at depth [h], so an access visits [h + 1] levels, and [h + 1] is
    the least number of levels (at least one) whose capacity suffices. *)
Theorem C10_vector_minimal_height : forall (T : Type) (ubits : N) (dbg : bool) (bits : N),
  8 <= ubits -> 0 < bits < ubits ->
  forall (v : rvec T) (l : list T), vec_reached ubits dbg bits v l ->
  exists h, v_height ubits dbg v = Ok h /\ uniform (v_root v) h /\
    forall levels, 1 <= levels ->
      (h + 1 <= levels <-> N.of_nat (length l) <= (2 ^ bits) ^ levels).
Proof.
  exact (fun T ubits dbg bits Hu Hb v l => min_height ubits dbg bits Hu (proj1 Hb) (proj2 Hb) v l).
Qed.
Print Assumptions C10_vector_minimal_height.

(** A case for C08-C10: a reached vector of 1-bit nodes, five elements, then shrunk to three. *)
Example C10_case : exists v,
  vec_reached 64 true 1 v [1; 2; 3]%nat /\ v_height 64 true v = Ok 1 /\
  v_root v = VBranch [VLeaf [1; 2]%nat; VLeaf [3]%nat] /\
  v_index 64 true v 2 = Ok 3%nat /\ v_index 64 true v 3 = Panic.
Proof.
  exists (mkV (VBranch [VLeaf [1; 2]%nat; VLeaf [3]%nat]) 1 3). split; [|vm_compute; auto].
  exists (mkV (VLeaf []) 1 0), [VExtend [1; 2; 3; 4; 5]%nat; VDropMut; VDrop],
    [OUnit; OBool true; OBool true].
  split; [reflexivity|]. split; [|split; vm_compute; reflexivity].
  cbn. unfold len, vec_limit. cbn. repeat split; lia.
Qed.

(** C11.  new_with_bits panics exactly for 0 ... *)
Theorem C11_bits_accepted : forall (T : Type) (bits : N),
  v_new_with_bits (T := T) bits = Panic <-> bits = 0.
Proof.
  intros T bits. unfold v_new_with_bits. destruct (N.ltb_spec 0 bits); split; intros; try discriminate; try reflexivity; exfalso + idtac; lia.
Qed.
Print Assumptions C11_bits_accepted.

(** ... but not every other value gives a sequence.  For bits >= usize::BITS the very first
    push panics when overflow checks are on ... *)
Theorem C11_bits_at_least_width_refuted : forall (T : Type) (ubits bits : N) (x : T),
  0 < ubits -> ubits <= bits ->
  exists v0, v_new_with_bits bits = Ok v0 /\ v_push_back ubits true v0 x = Panic.
Proof.
  intros T ubits bits x Hu H. exists (mkV (VLeaf []) bits 0). unfold v_new_with_bits.
  destruct (N.ltb_spec 0 bits); [|lia]. split; [reflexivity|].
  unfold v_push_back, v_push_back_mut, v_is_root_full, v_root_max_capacity, v_height.
  cbn [v_length v_bits N.ltb N.compare bind]. unfold uadd.
  destruct (0 + 1 <? 2 ^ ubits); [|reflexivity]. cbn [bind]. unfold umul. rewrite N.mul_1_r.
  destruct (bits <? 2 ^ ubits); [|reflexivity]. cbn [bind]. unfold ushl.
  destruct (N.ltb_spec bits ubits); [lia|]. reflexivity.
Qed.
Print Assumptions C11_bits_at_least_width_refuted.

(** ... and without them the second push silently overwrites the first element: the vector
    reports length 2, get(0) returns the second element, and iteration yields one element. *)
Theorem C11_release_corruption_refuted : forall (T : Type) (x y : T),
  exists v0 v1 v2, v_new_with_bits 64 = Ok v0 /\
    v_push_back 64 false v0 x = Ok v1 /\ v_push_back 64 false v1 y = Ok v2 /\
    v_len v2 = 2 /\ v_get 64 false v2 0 = Ok (Some y) /\ v_elems 64 false v2 = Ok [y].
Proof. intros T x y. do 3 eexists. repeat split. Qed.
Print Assumptions C11_release_corruption_refuted.

(** ... and without them every such vector is corrupted as soon as it outgrows its first leaf,
    which has room for [2^(bits mod usize::BITS)] elements: after one more push [get(1)]
    panics, or, if the leaf has room for only one, [get(0)] returns the second element. *)
Theorem C11_release_at_least_width_refuted : forall (T : Type) (ubits bits : N),
  8 <= ubits -> ubits <= bits -> bits < 2 ^ ubits ->
  forall (l : list T) (x : T), N.of_nat (length l) = 2 ^ (bits mod ubits) ->
  exists v0 v, v_new_with_bits bits = Ok v0 /\ v_extend ubits false v0 (l ++ [x]) = Ok v /\
    v_len v = N.of_nat (length (l ++ [x])) /\
    (bits mod ubits = 0 -> v_get ubits false v 0 = Ok (Some x)) /\
    (bits mod ubits <> 0 -> v_get ubits false v 1 = Panic).
Proof.
  intros T ubits bits Hu Hle Hlt l x Hl. set (r := bits mod ubits) in *.
  assert (Hr : r < ubits) by (apply N.mod_lt; lia).
  assert (Hpu : 2 ^ 8 <= 2 ^ ubits) by (apply N.pow_le_mono_r; lia). change (2 ^ 8) with 256 in Hpu.
  assert (H2r : 2 ^ (r + 1) <= 2 ^ ubits) by (apply N.pow_le_mono_r; lia). rewrite N.add_1_r, N.pow_succ_r' in H2r.
  assert (Hp0 : 0 < 2 ^ r) by (apply N.neq_0_lt_0, N.pow_nonzero; lia).
  (* the height is always computed as 0 *)
  assert (Hh : forall (root : vnode T) n, n <= 2 ^ r + 1 -> v_height ubits false (mkV root bits n) = Ok 0).
  { intros root n Hn. unfold v_height. cbn [v_length v_bits]. destruct (N.ltb_spec 1 n) as [H1|]; [|reflexivity].
    unfold usub at 1. destruct (N.leb_spec 1 n); [|lia]. cbn [bind]. unfold leading_zeros.
    assert (Hsz : 1 <= N.size (n - 1) <= ubits).
    { rewrite N.size_log2 by lia. split; [lia|]. apply N.le_succ_l. apply N.log2_lt_pow2; lia. }
    unfold usub at 1. destruct (N.leb_spec (ubits - N.size (n - 1)) ubits); [|lia]. cbn [bind].
    replace (ubits - (ubits - N.size (n - 1))) with (N.size (n - 1)) by lia. set (c := N.size (n - 1)) in *.
    assert (E : c / bits + (if 0 <? c mod bits then 1 else 0) = 1).
    { destruct (N.eq_dec c bits) as [->|]; [now rewrite N.div_same, N.mod_same by lia|].
      rewrite N.div_small, N.mod_small by lia. destruct (N.ltb_spec 0 c); lia. }
    rewrite E. reflexivity. }
  assert (Hcap : forall (root : vnode T) n, n <= 2 ^ r + 1 -> v_is_root_full ubits false (mkV root bits n) = Ok (n =? 2 ^ r)).
  { intros root n Hn. unfold v_is_root_full, v_root_max_capacity. rewrite (Hh root n Hn). cbn [bind v_bits v_length].
    unfold uadd. destruct (N.ltb_spec (0 + 1) (2 ^ ubits)); [|lia]. cbn [bind]. unfold umul. rewrite N.mul_1_r.
    destruct (N.ltb_spec bits (2 ^ ubits)); [|lia]. cbn [bind]. unfold ushl. destruct (N.ltb_spec bits ubits); [lia|].
    cbn [bind]. fold r. rewrite N.shiftl_1_l. unfold wrap. rewrite N.mod_small by lia. reflexivity. }
  assert (Hmask : mask ubits false bits = Ok (N.ones r)).
  { unfold mask, degree, ushl. destruct (N.ltb_spec bits ubits); [lia|]. fold r. cbn [bind]. rewrite N.shiftl_1_l. unfold wrap.
    rewrite N.mod_small by lia. unfold usub. destruct (N.leb_spec 1 (2 ^ r)); [|lia]. now rewrite N.ones_equiv, N.pred_sub. }
  assert (Hb0 : forall i, bucket ubits false bits i 0 = Ok (i mod 2 ^ r)).
  { intros i. unfold bucket, umul. cbn [N.mul]. destruct (N.ltb_spec 0 (2 ^ ubits)); [|lia]. cbn [bind]. unfold ushr.
    destruct (N.ltb_spec 0 ubits); [|lia]. rewrite Hmask. cbn [bind]. rewrite N.shiftr_0_r, N.land_ones. reflexivity. }
  assert (Hb : forall i h, exists j, bucket ubits false bits i h = Ok j /\ j < 2 ^ r).
  { intros i h. unfold bucket, umul. rewrite Hmask. destruct (h * bits <? 2 ^ ubits); cbn [bind]; unfold ushr;
      match goal with |- context [?s <? ubits] => destruct (s <? ubits) end; cbn [bind]; eexists; (split; [reflexivity|]);
      rewrite N.land_ones; apply N.mod_lt; lia. }
  (* filling the first leaf *)
  assert (Hfill : forall l1 l0 : list T, N.of_nat (length (l0 ++ l1)) <= 2 ^ r ->
     v_extend ubits false (mkV (VLeaf l0) bits (N.of_nat (length l0))) l1
     = Ok (mkV (VLeaf (l0 ++ l1)) bits (N.of_nat (length (l0 ++ l1))))).
  { induction l1 as [|a l1 IH]; intros l0 Hn; cbn [v_extend]; [now rewrite app_nil_r|].
    rewrite app_length in Hn. cbn [length] in Hn. unfold v_push_back_mut. rewrite Hcap by lia. cbn [bind].
    destruct (N.eqb_spec (N.of_nat (length l0)) (2 ^ r)); [lia|]. unfold v_assoc. cbn [bind v_length v_bits v_root].
    rewrite Hh by lia. cbn [bind]. change (v_fuel (mkV (VLeaf l0) bits (N.of_nat (length l0))) 0) with 1%nat.
    cbn [vn_assoc]. rewrite Hb0. cbn [bind]. rewrite N.mod_small by lia. unfold debug_assert. cbn [andb bind].
    rewrite N.eqb_refl. cbn [bind]. destruct (N.leb_spec (N.of_nat (length l0)) (N.of_nat (length l0))); [|lia].
    unfold uadd. destruct (N.ltb_spec (N.of_nat (length l0) + 1) (2 ^ ubits)); [|lia]. cbn [bind].
    replace (N.of_nat (length l0) + 1) with (N.of_nat (length (l0 ++ [a]))) by (rewrite app_length; cbn [length]; lia).
    rewrite IH by (rewrite <- app_assoc; rewrite app_length; cbn [app length]; lia). now rewrite <- app_assoc. }
  assert (Hext : forall (l1 l2 : list T) v, v_extend ubits false v (l1 ++ l2) =
     let! v' := v_extend ubits false v l1 in v_extend ubits false v' l2).
  { induction l1 as [|a l1 IH]; intros l2 v; cbn [app v_extend bind]; [reflexivity|].
    destruct (v_push_back_mut ubits false v a); cbn [bind]; auto. }
  exists (mkV (VLeaf []) bits 0). unfold v_new_with_bits. destruct (N.ltb_spec 0 bits); [|lia].
  rewrite Hext. pose proof (Hfill l [] ltac:(cbn [app]; lia)) as Ef. cbn [app length] in Ef. change (N.of_nat 0) with 0 in Ef.
  rewrite Ef. cbn [bind v_extend]. unfold v_push_back_mut. rewrite Hcap by lia. cbn [bind].
  destruct (N.eqb_spec (N.of_nat (length l)) (2 ^ r)); [|lia]. cbn [v_length v_bits v_root].
  assert (Eadd : uadd ubits false (N.of_nat (length l)) 1 = Ok (2 ^ r + 1)).
  { unfold uadd. rewrite Hl. destruct (N.ltb_spec (2 ^ r + 1) (2 ^ ubits)) as [|Hx]; [reflexivity|lia]. }
  rewrite Eadd. cbn [bind]. unfold v_assoc. cbn [bind v_length v_bits v_root]. rewrite Hh by lia. cbn [bind].
  change (v_fuel (mkV (VBranch [VLeaf l]) bits (2 ^ r + 1)) 0) with 2%nat.
  cbn [vn_assoc]. rewrite Hb0, Hl, N.mod_same by lia. unfold debug_assert. cbn [andb bind].
  change (N.to_nat 0) with 0%nat. cbn [nth_error]. unfold usub. destruct (N.leb_spec 1 0); [lia|]. cbn [bind update_nth].
  set (hm := wrap ubits (0 + 2 ^ ubits - 1)). destruct (Hb (2 ^ r) hm) as (j & Ej & Hj).
  rewrite Ej. cbn [bind]. destruct (N.eqb_spec (N.of_nat (length l)) j); [lia|].
  assert (Hup : exists l', update_nth (fun _ => Ok x) (N.to_nat j) l = Ok l' /\ nth_error l' (N.to_nat j) = Some x).
  { assert (Hjl : (N.to_nat j < length l)%nat) by lia. revert Hjl. generalize (N.to_nat j) as i. clear.
    induction l as [|a l IH]; intros [|i] H; cbn [update_nth length] in *; try lia.
    - cbn [bind]. exists (x :: l). auto.
    - destruct (IH i ltac:(lia)) as (l' & -> & E). cbn [bind]. exists (a :: l'). auto. }
  destruct Hup as (l' & El' & Ex). rewrite El'. cbn [bind]. destruct (N.leb_spec (2 ^ r + 1) (2 ^ r)); [lia|].
  eexists. split; [reflexivity|]. split; [reflexivity|]. unfold v_len. cbn [v_length]. split; [rewrite app_length; cbn [length]; lia|].
  assert (Hg : forall i, i < 2 ^ r + 1 -> v_get ubits false (mkV (VBranch [VLeaf l']) bits (2 ^ r + 1)) i =
    let! y := vn_get ubits false 2 bits (VBranch [VLeaf l']) i 0 in Ok (Some y)).
  { intros i Hi. unfold v_get. cbn [v_length]. destruct (N.leb_spec (2 ^ r + 1) i); [lia|]. rewrite Hh by lia. reflexivity. }
  split; intros Er.
  - rewrite Hg by lia. cbn [vn_get]. rewrite Hb0. rewrite Er in Hj |- *. change (2 ^ 0) with 1 in *.
    change (0 mod 1) with 0. cbn [bind]. unfold index_nth at 1. change (N.to_nat 0) with 0%nat. cbn [nth_error unwrap bind].
    unfold usub. destruct (N.leb_spec 1 0); [lia|]. cbn [bind]. destruct (Hb 0 (wrap ubits (0 + 2 ^ ubits - 1))) as (j' & -> & Hj').
    rewrite Er in Hj'. change (2 ^ 0) with 1 in Hj'. assert (j' = j) by lia. subst j'. cbn [bind]. unfold debug_assert. cbn [andb bind].
    unfold index_nth. rewrite Ex. reflexivity.
  - assert (2 ^ 1 <= 2 ^ r) by (apply N.pow_le_mono_r; lia). change (2 ^ 1) with 2 in *.
    rewrite Hg by lia. cbn [vn_get]. rewrite Hb0, N.mod_small by lia. cbn [bind]. unfold index_nth at 1.
    change (N.to_nat 1) with 1%nat. reflexivity.
Qed.
Print Assumptions C11_release_at_least_width_refuted.
Example C11_release_case : exists v0 v, v_new_with_bits 65 = Ok v0 /\
  v_extend 64 false v0 [7; 8; 9]%nat = Ok v /\ v_get 64 false v 1 = Panic.
Proof. do 2 eexists. repeat split. Qed.

(** For bits < usize::BITS the limit in C07 is exact with overflow checks: a vector that
    holds [vec_limit] elements cannot be pushed to. *)
Theorem C11_checked_capacity_exact : forall (T : Type) (ubits bits : N),
  8 <= ubits -> 0 < bits < ubits ->
  forall (v : rvec T) (l : list T) x, vec_reached ubits true bits v l ->
  N.of_nat (length l) = vec_limit ubits true bits ->
  v_push_back ubits true v x = Panic.
Proof.
  intros T ubits bits Hu [Hb Hbu] v l x H Hl.
  destruct (reached_rep ubits true bits Hu Hb Hbu v l H) as (Hr & _).
  exact (v_push_at_limit_panics ubits true bits Hu Hb Hbu v l x eq_refl Hr Hl).
Qed.
Print Assumptions C11_checked_capacity_exact.

(** The limit is reachable in practice: on a 32-bit target with 16 bits per level it is
    65536 elements; for the default 5 bits on a 64-bit target it is 2^60. *)
Example C11_limits : vec_limit 32 true 16 = 65536 /\ vec_limit 64 true 5 = 2 ^ 60
  /\ vec_limit 8 true 4 = 16.
Proof. repeat split. Qed.
Example C11_case : exists v, vec_reached 8 true 4 v (seq 0 16) /\ v_push_back 8 true v 16%nat = Panic.
Proof.
  eexists. split.
  - exists (mkV (VLeaf []) 4 0), [VExtend (seq 0 16)]. eexists.
    split; [reflexivity|]. split; [|split; [vm_compute; reflexivity|reflexivity]].
    cbn. unfold len, vec_limit. cbn. repeat split; lia.
  - vm_compute. reflexivity.
Qed.

(** C33 (Vector).  vector! and from_iter keep argument order. *)
Theorem C33_vector_construction : forall (T : Type) (ubits : N) (dbg : bool), 8 <= ubits ->
  forall xs : list T, N.of_nat (length xs) <= vec_limit ubits dbg 5 ->
  exists v, v_from_iter ubits dbg xs = Ok v /\ v_macro ubits dbg xs = Ok v /\
            v_elems ubits dbg v = Ok xs.
Proof.
  intros T ubits dbg Hu xs Hx.
  assert (H5 : 0 < 5 < ubits) by lia.
  destruct (v_new_with_bits (T := T) 5) as [v0| |] eqn:E0; try discriminate.
  pose proof (v_rep_new ubits dbg 5 Hu (proj1 H5) (proj2 H5) v0 E0) as Hr0.
  destruct (v_extend_ok ubits dbg 5 Hu (proj1 H5) (proj2 H5) xs v0 [] Hr0) as (v & E & Hr).
  { rewrite len_nil. unfold len. lia. }
  exists v. unfold v_from_iter, v_macro, v_new, DEFAULT_BITS. rewrite E0. cbn [bind].
  repeat split; try exact E.
  apply (v_elems_ok ubits dbg 5 Hu (proj1 H5) (proj2 H5) v xs Hr).
  pose proof (limit_lt ubits dbg 5 Hu (proj1 H5) (proj2 H5)). unfold len. lia.
Qed.
Print Assumptions C33_vector_construction.

Example C33_vector_case : exists v, v_macro 64 true (seq 0 40) = Ok v
  /\ N.of_nat (length (seq 0 40)) <= vec_limit 64 true 5 /\ v_elems 64 true v = Ok (seq 0 40).
Proof. eexists. split; [vm_compute; reflexivity|]. split; vm_compute; [congruence|reflexivity]. Qed.

(** C44 (Vector).  get_mut returns a reference exactly for indices below the length; after
    writing through it every other index reads as before and this one reads what was written. *)
Theorem C44_vector_get_mut : forall (T : Type) (ubits : N) (dbg : bool) (bits : N),
  8 <= ubits -> 0 < bits < ubits ->
  forall (v : rvec T) (l : list T), vec_reached ubits dbg bits v l ->
  forall (i : N) (f : T -> T), exists v',
    v_get_mut ubits dbg v i f = Ok (v', i <? N.of_nat (length l)) /\
    v_len v' = v_len v /\
    forall j, exists o, v_get ubits dbg v j = Ok o /\
      v_get ubits dbg v' j = Ok (if j =? i then option_map f o else o).
Proof.
  intros T ubits dbg bits Hu [Hb Hbu] v l H i f.
  destruct (reached_rep ubits dbg bits Hu Hb Hbu v l H) as (Hr & Hl & Hlt).
  destruct (v_get_mut_ok ubits dbg bits Hu Hb Hbu v l i f Hr Hlt) as (v' & E & Hr').
  exists v'. split; [exact E|].
  assert (Hlen : len (map_at_N f i l) = len l).
  { unfold map_at_N. destruct (in_range i l); [|reflexivity]. unfold len. now rewrite map_at_length. }
  split.
  { unfold v_len. destruct Hr as (_ & -> & _), Hr' as (_ & -> & _). exact Hlen. }
  intros j. exists (at_N l j). split; [exact (v_get_ok ubits dbg bits Hu Hb Hbu v l j Hr Hlt)|].
  rewrite (v_get_ok ubits dbg bits Hu Hb Hbu v' _ j Hr') by lia. f_equal.
  unfold at_N, in_range. fold (len l) (len (map_at_N f i l)). rewrite Hlen.
  unfold map_at_N, in_range. fold (len l).
  destruct (N.ltb_spec j (len l)) as [Hj|Hj].
  - destruct (N.ltb_spec i (len l)) as [Hi|Hi].
    + destruct (N.eqb_spec j i) as [->|Hne].
      * apply nth_error_map_at_same.
      * apply nth_error_map_at_other. lia.
    + destruct (N.eqb_spec j i); [lia|reflexivity].
  - destruct (j =? i); reflexivity.
Qed.
Print Assumptions C44_vector_get_mut.
