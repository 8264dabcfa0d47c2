(** Proofs about Vector: arithmetic, representation, operations. *)
From Coq Require Import List NArith ZArith Arith Bool Lia.
From Verif Require Import Base Spec Sim VectorModel.
Import ListNotations.

Local Open Scope N_scope.

Definition len {A} (l : list A) : N := N.of_nat (length l).

Lemma len_app : forall A (a b : list A), len (a ++ b) = len a + len b.
Proof. intros; unfold len; rewrite app_length; lia. Qed.
Lemma len_cons : forall A (x : A) l, len (x :: l) = len l + 1.
Proof. intros; unfold len; simpl length; lia. Qed.
Lemma len_nil : forall A, len ([] : list A) = 0.
Proof. reflexivity. Qed.

(** Largest length for which every operation is guaranteed to work: with overflow checks
    the capacity [1 << (bits * levels)] must not overflow the shift; without them only the
    length counter itself matters. *)
Definition vec_limit (ubits : N) (dbg : bool) (bits : N) : N :=
  if dbg then 2 ^ (bits * ((ubits - 1) / bits)) else 2 ^ ubits - 1.

Lemma pow2_pos : forall x, 0 < 2 ^ x.
Proof. intros. apply N.neq_0_lt_0. apply N.pow_nonzero. lia. Qed.

Lemma pow2_le : forall a b, a <= b -> 2 ^ a <= 2 ^ b.
Proof. intros. apply N.pow_le_mono_r; lia. Qed.

Lemma pow2_lt : forall a b, a < b -> 2 ^ a < 2 ^ b.
Proof. intros. apply N.pow_lt_mono_r; lia. Qed.

Lemma pow2_lt_inv : forall a b, 2 ^ a < 2 ^ b -> a < b.
Proof. intros. apply N.pow_lt_mono_r_iff in H; lia. Qed.

Lemma lin_lt_pow2 : forall x, x < 2 ^ x.
Proof. intros. apply N.pow_gt_lin_r. lia. Qed.

Lemma nth_error_focus : forall A (l1 : list A) x l2, nth_error (l1 ++ x :: l2) (length l1) = Some x.
Proof. intros. rewrite nth_error_app2 by lia. now rewrite Nat.sub_diag. Qed.

Lemma len_to_nat : forall A (l : list A), N.to_nat (len l) = length l.
Proof. intros; unfold len; lia. Qed.

Lemma index_focus : forall A (l1 : list A) x l2 b, len l1 = b -> index_nth (l1 ++ x :: l2) b = Ok x.
Proof.
  intros. subst. unfold index_nth. rewrite len_to_nat, nth_error_focus. reflexivity.
Qed.

Lemma update_nth_focus : forall A (f : A -> res A) l1 x l2,
  update_nth f (length l1) (l1 ++ x :: l2) = let! x' := f x in Ok (l1 ++ x' :: l2).
Proof.
  induction l1 as [|y l1 IH]; intros x l2; simpl; [reflexivity|].
  rewrite IH. destruct (f x); reflexivity.
Qed.

Lemma update_focus : forall A (f : A -> res A) l1 x l2 b, len l1 = b ->
  update_nth f (N.to_nat b) (l1 ++ x :: l2) = let! x' := f x in Ok (l1 ++ x' :: l2).
Proof. intros. subst. rewrite len_to_nat. apply update_nth_focus. Qed.

Lemma nth_split_at : forall A (l : list A) i, (i < length l)%nat ->
  exists l1 x l2, l = l1 ++ x :: l2 /\ length l1 = i.
Proof.
  intros A l i H. destruct (nth_error l i) as [x|] eqn:E; [|apply nth_error_None in E; lia].
  apply nth_error_split in E. destruct E as (l1 & l2 & -> & E). eauto.
Qed.

Lemma map_at_app1 : forall A (f : A -> A) l1 x l2, map_at f (length l1) (l1 ++ x :: l2) = l1 ++ f x :: l2.
Proof. induction l1; intros; simpl; [reflexivity|]. now rewrite IHl1. Qed.

Lemma map_at_shift : forall A (f : A -> A) l1 l2 i, map_at f (length l1 + i) (l1 ++ l2) = l1 ++ map_at f i l2.
Proof. induction l1; intros; simpl; [reflexivity|]. now rewrite IHl1. Qed.

Lemma map_at_app_l : forall A (f : A -> A) l1 l2 i, (i < length l1)%nat ->
  map_at f i (l1 ++ l2) = map_at f i l1 ++ l2.
Proof.
  induction l1 as [|x l1 IH]; intros l2 [|i] H; simpl in *; try lia; [reflexivity|].
  f_equal. apply IH. lia.
Qed.

Lemma map_at_length : forall A (f : A -> A) l i, length (map_at f i l) = length l.
Proof. induction l as [|x l IH]; intros [|i]; simpl; auto. Qed.

Lemma nth_error_map_at_same : forall A (f : A -> A) l i,
  nth_error (map_at f i l) i = option_map f (nth_error l i).
Proof. induction l as [|x l IH]; intros [|i]; simpl; auto. Qed.

Lemma nth_error_map_at_other : forall A (f : A -> A) l i j, i <> j ->
  nth_error (map_at f i l) j = nth_error l j.
Proof.
  induction l as [|x l IH]; intros [|i] [|j] H; simpl; auto; try lia.
Qed.

Lemma map_at_out : forall A (f : A -> A) l i, (length l <= i)%nat -> map_at f i l = l.
Proof. induction l as [|x l IH]; intros [|i] H; simpl in *; try lia; auto. f_equal. apply IH. lia. Qed.

Section VP.
Variable ubits : N.
Variable dbg : bool.
Variable bits : N.
Hypothesis Hu : 8 <= ubits.
Hypothesis Hb : 0 < bits.
Hypothesis Hbu : bits < ubits.
Set Default Proof Using "ubits dbg bits Hu Hb Hbu".

Lemma u2 : 2 * ubits < 2 ^ ubits.
Proof.
  assert (forall n, 8 <= n -> 2 * n < 2 ^ n) as G; [|now apply G].
  apply N.right_induction.
  - intros ? ? ->; tauto.
  - simpl. lia.
  - intros n H IH. rewrite N.pow_succ_r by lia. lia.
Qed.

(** [(2^bits)^h] *)
Definition dp (h : N) : N := 2 ^ (bits * h).

Lemma dp_pos : forall h, 0 < dp h.
Proof. intros; apply pow2_pos. Qed.
Lemma dp_S : forall h, dp (h + 1) = dp h * dp 1.
Proof. intros; unfold dp. rewrite <- N.pow_add_r. f_equal. lia. Qed.
Lemma dp_0 : dp 0 = 1.
Proof. unfold dp. now rewrite N.mul_0_r. Qed.
Lemma dp_1 : dp 1 = 2 ^ bits.
Proof. unfold dp. now rewrite N.mul_1_r. Qed.
Lemma dp_1_ge : 2 <= dp 1.
Proof. rewrite dp_1. change 2 with (2 ^ 1) at 1. apply pow2_le. lia. Qed.

Lemma wrap_small : forall x, x < 2 ^ ubits -> wrap ubits x = x.
Proof. intros. apply N.mod_small. assumption. Qed.

Lemma bucket_ok : forall index h, bits * h < ubits ->
  bucket ubits dbg bits index h = Ok ((index / dp h) mod dp 1).
Proof.
  intros index h H. unfold bucket.
  assert (Hm : umul ubits dbg h bits = Ok (bits * h)).
  { unfold umul. rewrite (N.mul_comm h bits).
    destruct (N.ltb_spec (bits * h) (2 ^ ubits)); [reflexivity|].
    pose proof (lin_lt_pow2 ubits). lia. }
  rewrite Hm; cbn [bind]. unfold ushr.
  destruct (N.ltb_spec (bits * h) ubits); [|lia]. cbn [bind].
  unfold mask, degree, ushl. destruct (N.ltb_spec bits ubits); [|lia]. cbn [bind].
  rewrite N.shiftl_1_l, wrap_small by now apply pow2_lt.
  unfold usub. pose proof (pow2_pos bits).
  destruct (N.leb_spec 1 (2 ^ bits)); [|lia]. cbn [bind].
  rewrite <- N.pred_sub, <- N.ones_equiv, N.land_ones, N.shiftr_div_pow2, dp_1. reflexivity.
Qed.

(** The digit at level [h] only depends on the index below the subtree's capacity. *)
Lemma digit : forall index h,
  (index / dp h) mod dp 1 = (index mod dp (h + 1)) / dp h.
Proof.
  intros. rewrite dp_S. pose proof (dp_pos h). pose proof (dp_pos 1).
  rewrite N.mod_mul_r by lia.
  rewrite (N.mul_comm (dp h)), N.div_add by lia.
  rewrite (N.div_small (index mod dp h)); [reflexivity|]. apply N.mod_lt. lia.
Qed.

Lemma digit_rest : forall index h, (index mod dp (h + 1)) mod dp h = index mod dp h.
Proof.
  intros. rewrite dp_S. pose proof (dp_pos h). pose proof (dp_pos 1).
  rewrite N.mod_mul_r by lia.
  rewrite N.mul_comm, N.mod_add by lia. apply N.mod_mod. lia.
Qed.

(** *** Height *)
Definition hspec (n h : N) : Prop :=
  (n <= 1 /\ h = 0) \/ (1 < n /\ dp h < n /\ n <= dp (h + 1)).

Lemma size_bounds : forall u, 0 < u -> 2 ^ (N.size u - 1) <= u < 2 ^ N.size u.
Proof.
  intros u H. rewrite N.size_log2 by lia.
  replace (N.succ (N.log2 u) - 1) with (N.log2 u) by lia.
  apply N.log2_spec. assumption.
Qed.

Context {T : Type}.
Implicit Types (n : vnode T).

Lemma height_ok : forall (v : rvec T), v_bits v = bits -> v_length v < 2 ^ ubits ->
  exists h, v_height ubits dbg v = Ok h /\ hspec (v_length v) h.
Proof.
  intros v Hv Hl. unfold v_height. rewrite Hv. set (k := v_length v) in *. clearbody k.
  destruct (N.ltb_spec 1 k) as [H1|H1].
  2:{ eexists; split; [reflexivity|]. left. lia. }
  unfold usub at 1. destruct (N.leb_spec 1 k); [|lia]. cbn [bind].
  pose proof (size_bounds (k - 1) ltac:(lia)) as [S1 S2].
  set (c := N.size (k - 1)) in *.
  assert (Hc0 : 0 < c).
  { destruct (N.eq_dec c 0) as [E|]; [|lia]. rewrite E in S2. cbn in S2. lia. }
  assert (Hc1 : c <= ubits).
  { assert (2 ^ (c - 1) < 2 ^ ubits) by lia. apply pow2_lt_inv in H0. lia. }
  assert (Hc : usub ubits dbg ubits (leading_zeros ubits (k - 1)) = Ok c).
  { unfold usub, leading_zeros. fold c. destruct (N.leb_spec (ubits - c) ubits); [|lia].
    f_equal. lia. }
  rewrite Hc; cbn [bind]. clear Hc.
  pose proof (N.div_mod c bits ltac:(lia)) as Hdm.
  pose proof (N.mod_lt c bits ltac:(lia)) as Hmod.
  set (q := c / bits) in *. set (r := c mod bits) in *.
  assert (Hq : exists h, q + (if 0 <? r then 1 else 0) = h + 1 /\ bits * h < c /\ c <= bits * (h + 1)).
  { destruct (N.ltb_spec 0 r).
    - exists q. lia.
    - assert (0 < q) by (destruct (N.eq_dec q 0); nia).
      exists (q - 1). split; [lia|]. split; nia. }
  destruct Hq as (h & -> & Q1 & Q2).
  exists h. split.
  - unfold usub. destruct (N.leb_spec 1 (h + 1)); [|lia]. f_equal. lia.
  - right. split; [assumption|]. unfold dp. split.
    + assert (2 ^ (bits * h) <= 2 ^ (c - 1)) by (apply pow2_le; lia). lia.
    + assert (2 ^ c <= 2 ^ (bits * (h + 1))) by (apply pow2_le; lia). lia.
Qed.

Lemma dp_le : forall a b, a <= b -> dp a <= dp b.
Proof. intros. apply pow2_le. nia. Qed.
Lemma dp_lt_inv : forall a b, dp a < dp b -> a < b.
Proof. intros a b H. unfold dp in H. apply pow2_lt_inv in H. nia. Qed.

Lemma hspec_unique : forall k h h', hspec k h -> hspec k h' -> h = h'.
Proof.
  intros k h h' [[H1 ->]|(H1 & H2 & H3)] [[H1' ->]|(H1' & H2' & H3')]; try lia.
  assert (dp h < dp (h' + 1)) by lia. assert (dp h' < dp (h + 1)) by lia.
  apply dp_lt_inv in H, H0. lia.
Qed.

Lemma hspec_shift : forall k h, k < 2 ^ ubits -> hspec k h -> bits * h < ubits.
Proof.
  intros k h Hk [[_ ->]|(_ & H & _)]; [lia|].
  assert (2 ^ (bits * h) < 2 ^ ubits) by (unfold dp in H; lia). now apply pow2_lt_inv in H0.
Qed.

Lemma hspec_cap : forall k h, hspec k h -> k <= dp (h + 1).
Proof.
  intros k h [[H ->]|(_ & _ & H)]; [|assumption].
  pose proof dp_1_ge. replace (0 + 1) with 1 by lia. lia.
Qed.

Lemma limit_lt : vec_limit ubits dbg bits < 2 ^ ubits.
Proof.
  unfold vec_limit. destruct dbg.
  - apply pow2_lt. pose proof (N.mul_div_le (ubits - 1) bits ltac:(lia)). lia.
  - pose proof (pow2_pos ubits). lia.
Qed.

Lemma limit_dbg_shift : forall k h, dbg = true -> k <= vec_limit ubits dbg bits -> hspec k h ->
  bits * (h + 1) < ubits.
Proof.
  intros k h Hd Hk Hh. unfold vec_limit in Hk. rewrite Hd in Hk.
  set (H := (ubits - 1) / bits) in *.
  pose proof (N.mul_div_le (ubits - 1) bits ltac:(lia)) as HH. fold H in HH.
  assert (1 <= H).
  { apply N.div_le_lower_bound; lia. }
  assert (h < H).
  { destruct Hh as [[_ ->]|(_ & Hh & _)]; [lia|].
    apply dp_lt_inv. fold (dp H) in Hk. lia. }
  nia.
Qed.

Lemma root_cap_small : forall (v : rvec T) h, v_bits v = bits ->
  v_height ubits dbg v = Ok h -> bits * (h + 1) < ubits ->
  v_root_max_capacity ubits dbg v = Ok (dp (h + 1)).
Proof.
  intros v h Hv Hh Hs. unfold v_root_max_capacity. rewrite Hh, Hv; cbn [bind].
  pose proof (lin_lt_pow2 ubits).
  assert (Ha : uadd ubits dbg h 1 = Ok (h + 1)).
  { unfold uadd. destruct (N.ltb_spec (h + 1) (2 ^ ubits)); [reflexivity|nia]. }
  rewrite Ha; cbn [bind].
  unfold umul. destruct (N.ltb_spec (bits * (h + 1)) (2 ^ ubits)); [|lia]. cbn [bind].
  unfold ushl. destruct (N.ltb_spec (bits * (h + 1)) ubits); [|lia].
  rewrite N.shiftl_1_l, wrap_small by now apply pow2_lt. reflexivity.
Qed.

Lemma is_root_full_ok : forall (v : rvec T) h, v_bits v = bits ->
  v_height ubits dbg v = Ok h -> hspec (v_length v) h ->
  v_length v <= vec_limit ubits dbg bits ->
  v_is_root_full ubits dbg v = Ok (v_length v =? dp (h + 1)).
Proof.
  intros v h Hv Hh Hs Hl. pose proof limit_lt as HL.
  unfold v_is_root_full.
  destruct (N.lt_ge_cases (bits * (h + 1)) ubits) as [C|C].
  - rewrite (root_cap_small v h) by assumption. reflexivity.
  - destruct dbg eqn:Hd.
    + pose proof (limit_dbg_shift (v_length v) h Hd) as G. rewrite Hd in G. specialize (G Hl Hs). lia.
    + pose proof (hspec_shift _ _ (N.le_lt_trans _ _ _ Hl HL) Hs) as Hsh.
      pose proof u2 as U2.
      unfold v_root_max_capacity. rewrite Hh, Hv; cbn [bind].
      assert (Ha : uadd ubits false h 1 = Ok (h + 1)).
      { unfold uadd. destruct (N.ltb_spec (h + 1) (2 ^ ubits)); [reflexivity|nia]. }
      rewrite Ha; cbn [bind].
      unfold umul. destruct (N.ltb_spec (bits * (h + 1)) (2 ^ ubits)); [|nia]. cbn [bind].
      unfold ushl. destruct (N.ltb_spec (bits * (h + 1)) ubits); [lia|]. cbn [bind].
      assert (Hm : (bits * (h + 1)) mod ubits = bits * (h + 1) - ubits).
      { symmetry. apply (N.mod_unique _ _ 1); nia. }
      rewrite Hm, N.shiftl_1_l.
      assert (Hlt : bits * (h + 1) - ubits < bits) by nia.
      rewrite wrap_small by (apply pow2_lt; lia).
      f_equal. assert (h <> 0) by (intros ->; lia).
      assert (v_length v < dp (h + 1)).
      { assert (2 ^ ubits <= dp (h + 1)) by (apply pow2_le; lia). lia. }
      destruct (N.eqb_spec (v_length v) (dp (h + 1))); [lia|].
      apply N.eqb_neq. destruct Hs as [[_ ->]|(_ & Hs & _)]; [lia|].
      assert (2 ^ (bits * (h + 1) - ubits) <= dp h) by (apply pow2_le; nia). lia.
Qed.

(** *** Representation of a sequence by a trie of height [h]. *)
Inductive crep (R : vnode T -> list T -> Prop) (C : N) : list (vnode T) -> list T -> Prop :=
| cr_one : forall n l, R n l -> 0 < len l <= C -> crep R C [n] l
| cr_cons : forall n l ns ls, R n l -> len l = C -> crep R C ns ls -> crep R C (n :: ns) (l ++ ls).

Fixpoint rep (h : nat) (n : vnode T) (l : list T) : Prop :=
  match h with
  | O => n = VLeaf l /\ len l <= dp 1
  | S h' => exists cs, n = VBranch cs /\ crep (rep h') (dp (N.of_nat h)) cs l
                       /\ len l <= dp (N.of_nat h + 1)
  end.

Lemma crep_nonempty : forall R C ns l, 0 < C -> crep R C ns l -> 0 < len l.
Proof. intros R C ns l HC H. destruct H; [lia|]. rewrite len_app. lia. Qed.

Lemma crep_ne : forall R C ns l, crep R C ns l -> ns <> [].
Proof. intros R C ns l H. destruct H; discriminate. Qed.

(** Focus on the child holding position [j]. *)
Lemma crep_focus : forall R C ns l j, 0 < C -> crep R C ns l -> j < len l ->
  exists ns1 n ns2 l1 lc l2,
    ns = ns1 ++ n :: ns2 /\ l = l1 ++ lc ++ l2 /\ R n lc /\
    len ns1 = j / C /\ len l1 = C * (j / C) /\ j mod C < len lc /\
    (forall n' lc', R n' lc' -> length lc' = length lc ->
       crep R C (ns1 ++ n' :: ns2) (l1 ++ lc' ++ l2)).
Proof.
  intros R C ns l j HC H. revert j. induction H as [n l HR Hl|n l ns ls HR Hl Hc IH]; intros j Hj.
  - exists [], n, [], [], l, []. rewrite app_nil_r; simpl.
    rewrite N.div_small, N.mod_small by lia. rewrite ?len_nil, ?N.mul_0_r.
    repeat split; auto; try lia.
    intros n' lc' HR' Hlen. rewrite app_nil_r. apply cr_one; [assumption|]. unfold len in *. lia.
  - rewrite len_app in Hj. destruct (N.lt_ge_cases j C) as [Hlt|Hge].
    + exists [], n, ns, [], l, ls. simpl.
      rewrite N.div_small, N.mod_small by lia. rewrite ?len_nil, ?N.mul_0_r.
      repeat split; auto; try lia.
      intros n' lc' HR' Hlen. apply cr_cons; [assumption| |assumption]. unfold len in *. lia.
    + destruct (IH (j - C)) as (ns1 & m & ns2 & l1 & lc & l2 & -> & -> & HRm & E1 & E2 & E3 & Hk); [lia|].
      assert (Hdiv : j / C = (j - C) / C + 1).
      { replace j with ((j - C) + 1 * C) at 1 by lia. rewrite N.div_add by lia. reflexivity. }
      assert (Hmod : j mod C = (j - C) mod C).
      { replace j with ((j - C) + 1 * C) at 1 by lia. rewrite N.mod_add by lia. reflexivity. }
      exists (n :: ns1), m, ns2, (l ++ l1), lc, l2.
      rewrite len_cons, len_app, E1, E2, Hdiv, Hmod, <- app_assoc. simpl.
      repeat split; auto; try lia.
      intros n' lc' HR' Hlen. rewrite <- app_assoc. apply cr_cons; auto.
Qed.

(** Focus on the last child. *)
Lemma crep_last : forall R C ns l, 0 < C -> crep R C ns l ->
  exists ns1 n l1 lc,
    ns = ns1 ++ [n] /\ l = l1 ++ lc /\ R n lc /\ 0 < len lc <= C /\
    len l1 = C * len ns1 /\
    (forall n' lc', R n' lc' -> 0 < len lc' <= C -> crep R C (ns1 ++ [n']) (l1 ++ lc')) /\
    (ns1 = [] /\ l1 = [] \/ crep R C ns1 l1).
Proof.
  intros R C ns l HC H. induction H as [n l HR Hl|n l ns ls HR Hl Hc IH].
  - exists [], n, [], l. simpl. rewrite !len_nil, N.mul_0_r. repeat split; auto; try lia.
    intros. now apply cr_one.
  - destruct IH as (ns1 & m & l1 & lc & -> & -> & HRm & Hlc & E & Hk & Hrest).
    exists (n :: ns1), m, (l ++ l1), lc. rewrite len_app, len_cons, <- app_assoc.
    repeat split; auto; try lia.
    + intros. rewrite <- app_assoc. simpl. apply cr_cons; auto.
    + right. destruct Hrest as [[-> ->]|Hrest].
      * rewrite app_nil_r. apply cr_one; [assumption|lia].
      * now apply cr_cons.
Qed.

(** Append a child. *)
Lemma crep_snoc : forall R C ns l n' lc', 0 < C -> crep R C ns l ->
  len l = C * len ns -> R n' lc' -> 0 < len lc' <= C ->
  crep R C (ns ++ [n']) (l ++ lc').
Proof.
  intros R C ns l n' lc' HC H. revert n' lc'.
  induction H as [n l HR Hl|n l ns ls HR Hl Hc IH]; intros n' lc' E HR' Hl'.
  - simpl. apply cr_cons; [assumption|rewrite len_cons, len_nil in E; lia|now apply cr_one].
  - rewrite <- app_assoc. simpl. apply cr_cons; auto. apply IH; auto.
    rewrite len_app, len_cons in E. lia.
Qed.

Lemma crep_len_bounds : forall R C ns l, 0 < C -> crep R C ns l ->
  C * (len ns - 1) < len l <= C * len ns /\ 0 < len ns.
Proof.
  intros R C ns l HC H. induction H as [n l HR Hl|n l ns ls HR Hl Hc IH].
  - rewrite len_cons, len_nil. lia.
  - rewrite len_cons, len_app. nia.
Qed.

(** One unfolding step of the recursive functions. *)
Lemma vn_get_mut_S : forall fuel f n index height,
  vn_get_mut ubits dbg (S fuel) bits f n index height =
  (let! b := bucket ubits dbg bits index height in
      match n with
      | VBranch a =>
          let! h := usub ubits dbg height 1 in
          let! a' := update_nth (fun c => vn_get_mut ubits dbg fuel bits f c index h) (N.to_nat b) a in
          Ok (VBranch a')
      | VLeaf a =>
          let! _ := debug_assert dbg (height =? 0) in
          let! a' := update_nth (fun v => Ok (f v)) (N.to_nat b) a in
          Ok (VLeaf a')
      end).
Proof. reflexivity. Qed.

Lemma vn_assoc_S : forall fuel index n value height,
  vn_assoc ubits dbg (S fuel) bits index n value height =
  (let! b := bucket ubits dbg bits index height in
      match n with
      | VLeaf a =>
          let! _ := debug_assert dbg (height =? 0) in
          if N.of_nat (length a) =? b then Ok (VLeaf (a ++ [value]))
          else let! a' := update_nth (fun _ => Ok value) (N.to_nat b) a in Ok (VLeaf a')
      | VBranch a =>
          let! _ := debug_assert dbg (0 <? height) in
          match nth_error a (N.to_nat b) with
          | Some _ =>
              let! h := usub ubits dbg height 1 in
              let! a' := update_nth (fun s => vn_assoc ubits dbg fuel bits index s value h) (N.to_nat b) a in
              Ok (VBranch a')
          | None =>
              let subtree := if 1 <? height then VBranch [] else VLeaf [] in
              let! h := usub ubits dbg height 1 in
              let! s := vn_assoc ubits dbg fuel bits index subtree value h in
              Ok (VBranch (a ++ [s]))
          end
      end).
Proof. reflexivity. Qed.

(** *** Reading *)
Lemma usub_S : forall h, usub ubits dbg (N.of_nat (S h)) 1 = Ok (N.of_nat h).
Proof. intros. unfold usub. destruct (N.leb_spec 1 (N.of_nat (S h))); [f_equal; lia|lia]. Qed.

Lemma dassert_true : forall b, b = true -> debug_assert dbg b = Ok tt.
Proof. intros b ->. unfold debug_assert. now rewrite andb_false_r. Qed.

Lemma rep_get : forall h n l index,
  rep h n l -> bits * N.of_nat h < ubits -> index mod dp (N.of_nat h + 1) < len l ->
  exists x, vn_get ubits dbg (S h) bits n index (N.of_nat h) = Ok x /\
            nth_error l (N.to_nat (index mod dp (N.of_nat h + 1))) = Some x.
Proof.
  induction h as [|h IH]; intros n l index Hr Hs Hi.
  - destruct Hr as [-> Hl]. cbn [vn_get]. rewrite bucket_ok by exact Hs. cbn [bind].
    rewrite (dassert_true _ (N.eqb_refl _)). cbn [bind]. rewrite digit. change (N.of_nat 0) with 0 in *.
    rewrite dp_0, N.div_1_r. unfold index_nth.
    destruct (nth_error l _) as [x|] eqn:E.
    + exists x. split; reflexivity.
    + apply nth_error_None in E. unfold len in Hi. lia.
  - destruct Hr as (cs & -> & Hc & Hl).
    destruct (crep_focus _ _ _ _ _ (dp_pos _) Hc Hi) as
      (ns1 & m & ns2 & l1 & lc & l2 & -> & -> & HRm & E1 & E2 & E3 & _).
    cbn [vn_get]. rewrite bucket_ok by exact Hs. cbn [bind]. rewrite digit.
    rewrite (index_focus _ _ _ _ _ E1). cbn [bind]. rewrite usub_S. cbn [bind].
    rewrite digit_rest in E3.
    replace (N.of_nat (S h)) with (N.of_nat h + 1) in * by lia.
    destruct (IH m lc index HRm) as (x & Ex & Enth); [nia|assumption|].
    exists x. split; [exact Ex|].
    set (j := index mod dp (N.of_nat h + 1 + 1)) in *.
    pose proof (N.div_mod j (dp (N.of_nat h + 1)) ltac:(pose proof (dp_pos (N.of_nat h + 1)); lia)) as Hj.
    assert (Hjm : j mod dp (N.of_nat h + 1) = index mod dp (N.of_nat h + 1)) by (unfold j; apply digit_rest).
    rewrite Hjm in Hj. pose proof (len_to_nat _ l1) as HL1. pose proof (len_to_nat _ lc) as HLc.
    set (r := index mod dp (N.of_nat h + 1)) in *. clearbody r. rewrite <- E2 in Hj. rewrite nth_error_app2 by lia.
    rewrite nth_error_app1 by lia.
    rewrite <- Enth. f_equal. lia.
Qed.

(** *** Writing in place *)
Lemma focus_map_at : forall h index (f : T -> T) (l1 lc l2 : list T),
  len l1 = dp (N.of_nat h + 1) * (index mod dp (N.of_nat (S h) + 1) / dp (N.of_nat h + 1)) ->
  index mod dp (N.of_nat h + 1) < len lc ->
  map_at f (N.to_nat (index mod dp (N.of_nat (S h) + 1))) (l1 ++ lc ++ l2)
  = l1 ++ map_at f (N.to_nat (index mod dp (N.of_nat h + 1))) lc ++ l2.
Proof.
  intros h index f l1 lc l2 E2 E3.
  set (j := index mod dp (N.of_nat (S h) + 1)) in *.
  pose proof (N.div_mod j (dp (N.of_nat h + 1)) ltac:(pose proof (dp_pos (N.of_nat h + 1)); lia)) as Hj.
  assert (Hjm : j mod dp (N.of_nat h + 1) = index mod dp (N.of_nat h + 1)).
  { unfold j. replace (N.of_nat (S h)) with (N.of_nat h + 1) by lia. apply digit_rest. }
  rewrite Hjm in Hj.
  replace (N.to_nat j) with (length l1 + N.to_nat (index mod dp (N.of_nat h + 1)))%nat
    by (rewrite <- (len_to_nat _ l1); lia).
  rewrite map_at_shift, map_at_app_l; [reflexivity|]. unfold len in E3. lia.
Qed.

Lemma rep_get_mut : forall h n l index f,
  rep h n l -> bits * N.of_nat h < ubits -> index mod dp (N.of_nat h + 1) < len l ->
  exists n', vn_get_mut ubits dbg (S h) bits f n index (N.of_nat h) = Ok n' /\
             rep h n' (map_at f (N.to_nat (index mod dp (N.of_nat h + 1))) l).
Proof.
  induction h as [|h IH]; intros n l index f Hr Hs Hi.
  - destruct Hr as [-> Hl]. rewrite vn_get_mut_S. rewrite bucket_ok by exact Hs. cbn [bind].
    rewrite (dassert_true _ (N.eqb_refl _)). cbn [bind]. rewrite digit. change (N.of_nat 0) with 0 in *.
    rewrite dp_0, N.div_1_r.
    destruct (nth_split_at _ l (N.to_nat (index mod dp (0 + 1)))) as (l1 & x & l2 & -> & E);
      [unfold len in Hi; lia|].
    rewrite (update_focus _ _ _ _ _ (index mod dp (0 + 1))) by (unfold len; lia). cbn [bind].
    eexists. split; [reflexivity|]. rewrite <- E, map_at_app1.
    split; [reflexivity|]. rewrite len_app, len_cons in *. lia.
  - destruct Hr as (cs & -> & Hc & Hl).
    destruct (crep_focus _ _ _ _ _ (dp_pos _) Hc Hi) as
      (ns1 & m & ns2 & l1 & lc & l2 & -> & -> & HRm & E1 & E2 & E3 & Hk).
    rewrite vn_get_mut_S. rewrite bucket_ok by exact Hs. cbn [bind]. rewrite digit.
    rewrite usub_S. cbn [bind].
    rewrite (update_focus _ _ _ _ _ _ E1).
    assert (EQ : N.of_nat (S h) = N.of_nat h + 1) by lia.
    rewrite EQ in E3 at 2. rewrite EQ in E3, E2, Hk. rewrite digit_rest in E3.
    destruct (IH m lc index f HRm) as (m' & Em & Hm'); [nia|assumption|].
    cbv beta. rewrite Em. cbn [bind].
    eexists. split; [reflexivity|].
    rewrite focus_map_at by (rewrite ?EQ; assumption).
    eexists. split; [reflexivity|]. rewrite EQ. split.
    + apply Hk; [assumption|apply map_at_length].
    + unfold len in *. rewrite !app_length, map_at_length in *. rewrite EQ in Hl. exact Hl.
Qed.

(** [assoc] at an existing position replaces; at position [len l] it appends. *)
Lemma rep_assoc_set : forall h n l index x,
  rep h n l -> bits * N.of_nat h < ubits -> index mod dp (N.of_nat h + 1) < len l ->
  exists n', vn_assoc ubits dbg (S h) bits index n x (N.of_nat h) = Ok n' /\
             rep h n' (map_at (fun _ => x) (N.to_nat (index mod dp (N.of_nat h + 1))) l).
Proof.
  induction h as [|h IH]; intros n l index x Hr Hs Hi.
  - destruct Hr as [-> Hl]. rewrite vn_assoc_S. rewrite bucket_ok by exact Hs. cbn [bind].
    rewrite (dassert_true _ (N.eqb_refl _)). cbn [bind]. rewrite digit. change (N.of_nat 0) with 0 in *.
    rewrite dp_0, N.div_1_r.
    destruct (N.eqb_spec (N.of_nat (length l)) (index mod dp (0 + 1))) as [E|_]; [unfold len in Hi; lia|].
    destruct (nth_split_at _ l (N.to_nat (index mod dp (0 + 1)))) as (l1 & y & l2 & -> & E);
      [unfold len in Hi; lia|].
    rewrite (update_focus _ _ _ _ _ (index mod dp (0 + 1))) by (unfold len; lia). cbn [bind].
    eexists. split; [reflexivity|]. rewrite <- E, map_at_app1.
    split; [reflexivity|]. rewrite len_app, len_cons in *. lia.
  - destruct Hr as (cs & -> & Hc & Hl).
    destruct (crep_focus _ _ _ _ _ (dp_pos _) Hc Hi) as
      (ns1 & m & ns2 & l1 & lc & l2 & -> & -> & HRm & E1 & E2 & E3 & Hk).
    rewrite vn_assoc_S. rewrite bucket_ok by exact Hs. cbn [bind]. rewrite digit.
    rewrite dassert_true by (apply N.ltb_lt; lia). cbn [bind].
    replace (nth_error (ns1 ++ m :: ns2) _) with (Some m)
      by (rewrite <- E1, len_to_nat, nth_error_focus; reflexivity).
    rewrite usub_S. cbn [bind].
    rewrite (update_focus _ _ _ _ _ _ E1).
    assert (EQ : N.of_nat (S h) = N.of_nat h + 1) by lia.
    rewrite EQ in E3 at 2. rewrite EQ in E3, E2, Hk. rewrite digit_rest in E3.
    destruct (IH m lc index x HRm) as (m' & Em & Hm'); [nia|assumption|].
    cbv beta. rewrite Em. cbn [bind].
    eexists. split; [reflexivity|].
    rewrite focus_map_at by (rewrite ?EQ; assumption).
    eexists. split; [reflexivity|]. rewrite EQ. split.
    + apply Hk; [assumption|apply map_at_length].
    + unfold len in *. rewrite !app_length, map_at_length in *. rewrite EQ in Hl. exact Hl.
Qed.

(** The node [assoc] starts from at height [h] when nothing is there yet. *)
Definition empty_node (h : nat) : vnode T := match h with O => VLeaf [] | S _ => VBranch [] end.

(** Appending at position [len l]; [l = []] covers the freshly created subtree. *)
Lemma rep_assoc_push : forall h n l index x,
  (rep h n l \/ (n = empty_node h /\ l = [])) -> bits * N.of_nat h < ubits ->
  index mod dp (N.of_nat h + 1) = len l ->
  exists n', vn_assoc ubits dbg (S h) bits index n x (N.of_nat h) = Ok n' /\
             rep h n' (l ++ [x]).
Proof.
  induction h as [|h IH]; intros n l index x Hr Hs Hi.
  - assert (Hn : n = VLeaf l) by (destruct Hr as [[-> _]|[-> ->]]; reflexivity). subst n.
    rewrite vn_assoc_S. rewrite bucket_ok by exact Hs. cbn [bind].
    rewrite (dassert_true _ (N.eqb_refl _)). cbn [bind]. rewrite digit. change (N.of_nat 0) with 0 in *.
    rewrite dp_0, N.div_1_r.
    destruct (N.eqb_spec (N.of_nat (length l)) (index mod dp (0 + 1))) as [_|E]; [|unfold len in Hi; lia].
    eexists. split; [reflexivity|]. split; [reflexivity|].
    rewrite len_app, len_cons, len_nil, <- Hi.
    pose proof (N.mod_lt index (dp (0 + 1)) ltac:(pose proof (dp_pos (0 + 1)); lia)).
    change (0 + 1) with 1 in *. lia.
  - assert (EQ : N.of_nat (S h) = N.of_nat h + 1) by lia.
    assert (Hcap : len (l ++ [x]) <= dp (N.of_nat (S h) + 1)).
    { rewrite len_app, len_cons, len_nil, <- Hi.
      pose proof (N.mod_lt index (dp (N.of_nat (S h) + 1)) ltac:(pose proof (dp_pos (N.of_nat (S h) + 1)); lia)).
      lia. }
    assert (Hnew : forall cs, n = VBranch cs ->
      (cs = [] /\ l = [] \/ crep (rep h) (dp (N.of_nat (S h))) cs l) ->
      len l = dp (N.of_nat (S h)) * len cs ->
      exists n', vn_assoc ubits dbg (S (S h)) bits index n x (N.of_nat (S h)) = Ok n' /\
             rep (S h) n' (l ++ [x])).
    { intros cs -> Hcs Hlen.
      assert (Hj : index mod dp (N.of_nat (S h) + 1) / dp (N.of_nat (S h)) = len cs).
      { rewrite Hi, Hlen, N.mul_comm, N.div_mul; [reflexivity|]. pose proof (dp_pos (N.of_nat (S h))). lia. }
      rewrite vn_assoc_S. rewrite bucket_ok by exact Hs. cbn [bind]. rewrite digit.
      rewrite dassert_true by (apply N.ltb_lt; lia). cbn [bind].
      rewrite Hj, len_to_nat.
      replace (nth_error cs (length cs)) with (@None (vnode T)) by (symmetry; apply nth_error_None; lia).
      replace (if 1 <? N.of_nat (S h) then VBranch [] else VLeaf []) with (empty_node h).
      2:{ destruct h; [reflexivity|]. replace (1 <? N.of_nat (S (S h))) with true; [reflexivity|].
          symmetry. apply N.ltb_lt. lia. }
      rewrite usub_S. cbn [bind].
      assert (H0 : index mod dp (N.of_nat h + 1) = 0).
      { rewrite <- digit_rest. rewrite <- EQ, Hi, Hlen, N.mul_comm.
        apply N.mod_mul. pose proof (dp_pos (N.of_nat (S h))). lia. }
      destruct (IH (empty_node h) [] index x) as (n' & E & Hn'); [right; auto|nia|exact H0|].
      rewrite E. cbn [bind]. eexists. split; [reflexivity|].
      eexists. split; [reflexivity|]. split; [|exact Hcap].
      pose proof (dp_pos (N.of_nat (S h))).
      destruct Hcs as [[-> ->]|Hcs].
      - cbn [app]. apply cr_one; [exact Hn'|]. rewrite len_cons, len_nil. lia.
      - apply crep_snoc; auto. rewrite len_cons, len_nil. lia. }
    destruct Hr as [(cs & -> & Hc & Hl)|[-> ->]].
    2:{ apply (Hnew []); auto. now rewrite !len_nil, N.mul_0_r. }
    destruct (crep_last _ _ _ _ (dp_pos _) Hc) as
      (ns1 & m & l1 & lc & Ens & El & HRm & Hlc & E1 & Hk & _).
    destruct (N.eq_dec (len lc) (dp (N.of_nat (S h)))) as [Hfull|Hnf].
    + apply (Hnew cs); auto. subst. rewrite !len_app, len_cons, len_nil, E1, Hfull. ring.
    + subst cs l. clear Hnew. rewrite len_app in Hi.
      pose proof (dp_pos (N.of_nat (S h))) as Hp.
      assert (Hj : index mod dp (N.of_nat (S h) + 1) / dp (N.of_nat (S h)) = len ns1).
      { rewrite Hi, E1. symmetry. apply (N.div_unique _ _ _ (len lc)); lia. }
      assert (Hm : index mod dp (N.of_nat h + 1) = len lc).
      { rewrite <- digit_rest. rewrite <- EQ, Hi, E1. symmetry. apply (N.mod_unique _ _ (len ns1)); lia. }
      rewrite vn_assoc_S. rewrite bucket_ok by exact Hs. cbn [bind]. rewrite digit, Hj.
      rewrite dassert_true by (apply N.ltb_lt; lia). cbn [bind].
      rewrite len_to_nat, nth_error_focus, usub_S. cbn [bind].
      rewrite update_nth_focus.
      destruct (IH m lc index x) as (m' & Em & Hm'); [left; exact HRm|nia|exact Hm|].
      cbv beta. rewrite Em. cbn [bind]. eexists. split; [reflexivity|].
      eexists. split; [reflexivity|]. rewrite <- app_assoc. split.
      * apply Hk; [exact Hm'|]. rewrite len_app, len_cons, len_nil. lia.
      * rewrite app_assoc. exact Hcap.
Qed.

(** *** Dropping the last element *)
Lemma vn_drop_last_branch : forall (ns1 : list (vnode T)) m,
  vn_drop_last (VBranch (ns1 ++ [m])) =
  let! (m', e) := vn_drop_last m in
  Ok (VBranch (if e then ns1 else ns1 ++ [m']), vn_is_empty (VBranch (if e then ns1 else ns1 ++ [m']))).
Proof.
  intros ns1 m. cbn [vn_drop_last].
  replace (vn_is_empty (VBranch (ns1 ++ [m]))) with false
    by (unfold vn_is_empty; simpl; rewrite app_length; simpl; symmetry; apply Nat.eqb_neq; lia).
  assert (G : forall f, on_last f (ns1 ++ [m]) = let! (m', e) := f m in Ok (if e then ns1 else ns1 ++ [m'])).
  { intros f. induction ns1 as [|y ns1 IH].
    - simpl. destruct (f m) as [[m' [|]]| |]; reflexivity.
    - cbn [app on_last]. destruct (ns1 ++ [m]) eqn:E; [destruct ns1; discriminate|].
      rewrite IH. destruct (f m) as [[m' [|]]| |]; reflexivity. }
  rewrite G. destruct (vn_drop_last m) as [[m' e]| |]; reflexivity.
Qed.

Lemma rep_drop_last : forall h n l x,
  rep h n (l ++ [x]) ->
  exists n', vn_drop_last n = Ok (n', is_nil l) /\
             (l = [] /\ n' = empty_node h \/ l <> [] /\ rep h n' l).
Proof.
  induction h as [|h IH]; intros n l x Hr.
  - destruct Hr as [-> Hl]. cbn [vn_drop_last].
    replace (vn_is_empty (VLeaf (l ++ [x]))) with false
      by (unfold vn_is_empty; simpl; rewrite app_length; simpl; symmetry; apply Nat.eqb_neq; lia).
    cbn [bind]. rewrite removelast_snoc. eexists. split.
    + do 2 f_equal. destruct l; reflexivity.
    + destruct l as [|y l]; [left; auto|right]. split; [discriminate|]. split; [reflexivity|].
      rewrite len_app in Hl. lia.
  - destruct Hr as (cs & -> & Hc & Hl).
    destruct (crep_last _ _ _ _ (dp_pos _) Hc) as
      (ns1 & m & l1 & lc & -> & El & HRm & Hlc & E1 & Hk & Hrest).
    destruct lc as [|y lc0] using rev_ind; [rewrite len_nil in Hlc; lia|]. clear IHlc0.
    rewrite app_assoc in El. apply app_inj_tail in El. destruct El as [-> <-].
    destruct (IH m lc0 x HRm) as (m' & Em & Hm').
    rewrite vn_drop_last_branch, Em. cbn [bind].
    destruct Hm' as [[-> ->]|[Hne Hm']].
    + simpl is_nil. cbv iota. rewrite app_nil_r. eexists. split.
      * do 2 f_equal. unfold vn_is_empty; simpl.
        destruct Hrest as [[-> ->]|Hrest]; [reflexivity|].
        pose proof (crep_ne _ _ _ _ Hrest). pose proof (crep_nonempty _ _ _ _ (dp_pos _) Hrest).
        destruct ns1; [congruence|]. destruct l1; [rewrite len_nil in *; lia|]. reflexivity.
      * destruct Hrest as [[-> ->]|Hrest].
        -- left. auto.
        -- right. pose proof (crep_nonempty _ _ _ _ (dp_pos _) Hrest).
           split; [intros ->; rewrite len_nil in *; lia|].
           eexists. split; [reflexivity|]. split; [exact Hrest|].
           rewrite !len_app in Hl. lia.
    + replace (is_nil lc0) with false by (destruct lc0; [congruence|reflexivity]).
      cbv iota. eexists. split.
      * do 2 f_equal. unfold vn_is_empty; simpl. rewrite app_length; simpl.
        destruct l1, lc0; try congruence; simpl; apply Nat.eqb_neq; lia.
      * right. split; [destruct l1; [assumption|discriminate]|].
        eexists. split; [reflexivity|]. split.
        -- apply Hk; [exact Hm'|]. rewrite len_app in Hlc.
           destruct lc0; [congruence|]. rewrite len_cons in *. lia.
        -- rewrite !len_app in *. lia.
Qed.

(** *** More fuel changes nothing. *)
Lemma update_nth_mono : forall A (f g : A -> res A) i l l',
  (forall x x', f x = Ok x' -> g x = Ok x') ->
  update_nth f i l = Ok l' -> update_nth g i l = Ok l'.
Proof.
  intros A f g i l l' H. revert i l'. induction l as [|x l IH]; intros [|i] l' E; cbn in *; try discriminate.
  - apply bind_Ok in E as (x' & E & E'). rewrite (H _ _ E). exact E'.
  - apply bind_Ok in E as (x' & E & E'). rewrite (IH _ _ E). exact E'.
Qed.

Lemma vn_get_mono : forall fuel (n : vnode T) index height x extra,
  vn_get ubits dbg fuel bits n index height = Ok x ->
  vn_get ubits dbg (fuel + extra) bits n index height = Ok x.
Proof.
  induction fuel as [|fuel IH]; intros n index height x extra H; [discriminate|].
  cbn [vn_get plus] in *. apply bind_Ok in H as (b & E & H). rewrite E. cbn [bind].
  destruct n as [a|a]; [|exact H].
  apply bind_Ok in H as (c & E1 & H). rewrite E1. cbn [bind].
  apply bind_Ok in H as (h & E2 & H). rewrite E2. cbn [bind]. now apply IH.
Qed.

Lemma vn_get_mut_mono : forall fuel f (n : vnode T) index height x extra,
  vn_get_mut ubits dbg fuel bits f n index height = Ok x ->
  vn_get_mut ubits dbg (fuel + extra) bits f n index height = Ok x.
Proof.
  induction fuel as [|fuel IH]; intros f n index height x extra H; [discriminate|].
  cbn [vn_get_mut plus] in *. apply bind_Ok in H as (b & E & H). rewrite E. cbn [bind].
  destruct n as [a|a]; [|exact H].
  apply bind_Ok in H as (h & E2 & H). rewrite E2. cbn [bind].
  apply bind_Ok in H as (a' & E1 & H).
  rewrite (update_nth_mono _ _ (fun c => vn_get_mut ubits dbg (fuel + extra) bits f c index h) _ _ _
             (fun y y' => IH f y index h y' extra) E1). exact H.
Qed.

Lemma vn_assoc_mono : forall fuel v (n : vnode T) index height x extra,
  vn_assoc ubits dbg fuel bits index n v height = Ok x ->
  vn_assoc ubits dbg (fuel + extra) bits index n v height = Ok x.
Proof.
  induction fuel as [|fuel IH]; intros v n index height x extra H; [discriminate|].
  cbn [vn_assoc plus] in *. apply bind_Ok in H as (b & E & H). rewrite E. cbn [bind].
  destruct n as [a|a]; [|exact H].
  apply bind_Ok in H as (u & E2 & H). rewrite E2. cbn [bind].
  destruct (nth_error a (N.to_nat b)).
  - apply bind_Ok in H as (h & E3 & H). rewrite E3. cbn [bind].
    apply bind_Ok in H as (a' & E1 & H).
    rewrite (update_nth_mono _ _ (fun s => vn_assoc ubits dbg (fuel + extra) bits index s v h) _ _ _
               (fun y y' => IH v y index h y' extra) E1). exact H.
  - cbv zeta in *. apply bind_Ok in H as (h & E3 & H). rewrite E3. cbn [bind].
    apply bind_Ok in H as (a' & E1 & H). rewrite (IH _ _ _ _ _ extra E1). exact H.
Qed.

Lemma rep_get_x : forall h n l index extra,
  rep h n l -> bits * N.of_nat h < ubits -> index mod dp (N.of_nat h + 1) < len l ->
  exists x, vn_get ubits dbg (S h + extra) bits n index (N.of_nat h) = Ok x /\
            nth_error l (N.to_nat (index mod dp (N.of_nat h + 1))) = Some x.
Proof.
  intros h n l index extra H1 H2 H3. destruct (rep_get h n l index H1 H2 H3) as (x & E & Hx).
  exists x. split; [now apply vn_get_mono|exact Hx].
Qed.

Lemma rep_get_mut_x : forall h n l index f extra,
  rep h n l -> bits * N.of_nat h < ubits -> index mod dp (N.of_nat h + 1) < len l ->
  exists n', vn_get_mut ubits dbg (S h + extra) bits f n index (N.of_nat h) = Ok n' /\
             rep h n' (map_at f (N.to_nat (index mod dp (N.of_nat h + 1))) l).
Proof.
  intros h n l index f extra H1 H2 H3. destruct (rep_get_mut h n l index f H1 H2 H3) as (x & E & Hx).
  exists x. split; [now apply vn_get_mut_mono|exact Hx].
Qed.

Lemma rep_assoc_set_x : forall h n l index x extra,
  rep h n l -> bits * N.of_nat h < ubits -> index mod dp (N.of_nat h + 1) < len l ->
  exists n', vn_assoc ubits dbg (S h + extra) bits index n x (N.of_nat h) = Ok n' /\
             rep h n' (map_at (fun _ => x) (N.to_nat (index mod dp (N.of_nat h + 1))) l).
Proof.
  intros h n l index x extra H1 H2 H3. destruct (rep_assoc_set h n l index x H1 H2 H3) as (n' & E & Hx).
  exists n'. split; [now apply vn_assoc_mono|exact Hx].
Qed.

Lemma rep_assoc_push_x : forall h n l index x extra,
  (rep h n l \/ (n = empty_node h /\ l = [])) -> bits * N.of_nat h < ubits ->
  index mod dp (N.of_nat h + 1) = len l ->
  exists n', vn_assoc ubits dbg (S h + extra) bits index n x (N.of_nat h) = Ok n' /\
             rep h n' (l ++ [x]).
Proof.
  intros h n l index x extra H1 H2 H3. destruct (rep_assoc_push h n l index x H1 H2 H3) as (n' & E & Hx).
  exists n'. split; [now apply vn_assoc_mono|exact Hx].
Qed.
End VP.
