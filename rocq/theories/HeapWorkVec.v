(** * Steps of Vector (for C50)

    [pays] for the functions of HeapVec.v.  A cell is fine when it holds at most
    [2^bits] pointers. *)
From Coq Require Import List NArith Arith Lia Bool Permutation.
From Verif Require Import Base Spec VectorModel VectorProofs HeapModel HeapProofs HeapSafe HeapClient HeapWorld
  HeapLooks HeapVec HeapVecProofs HeapWork HeapWorkSeq.
Import ListNotations.
Local Open Scope prog_scope.

Lemma put_length : forall {X} (l : list X) i x, length (put l i x) = length l.
Proof. induction l as [|y l IH]; intros [|i] x; cbn; auto. Qed.

Lemma removelast_length : forall {X} (l : list X), length (removelast l) <= length l.
Proof.
  induction l as [|x [|y l] IH]; trivial; cbn [removelast length] in *; lia.
Qed.
Lemma removelast_snoc_length : forall {X} (l : list X) x, l <> [] -> length (removelast l ++ [x]) = length l.
Proof.
  intros X l x N. rewrite (app_removelast_last x N) at 2. now rewrite !app_length.
Qed.

Section Vec.
Context (ubits : N) (dbg : bool) (bits : N) {T : Type}.
Hypothesis Hu : (8 <= ubits)%N.
Hypothesis Hb : (0 < bits)%N.
Hypothesis Hbu : (bits < ubits)%N.
Notation C := (vcell T).

Definition ways : nat := N.to_nat (2 ^ bits).
Definition thin (c : C) : Prop := length (vkids c) <= ways.

Context (credit : nat) (dc : nat -> nat).
Hypothesis drops : forall f a, pays credit thin (dc f) (drop_ptr (@vkids T) f a) any.
Notation pays := (pays credit thin).
Notation mm := (3 + ways + credit + dc 2).
Notation lev := (4 + ways + credit + dc 2).

Lemma pay_lift : forall {A B} (r : res A) n (k : A -> prog C B) R,
  (forall x, r = Ok x -> pays n (k x) R) -> pays n (let* x := lift r in k x) R.
Proof. intros A B [x| |] n k R S; cbn; trivial. now apply S. Qed.

Lemma mm_pays : forall a, pays mm (make_mut (@vkids T) a) (fun r => thin (snd r)).
Proof. intros a. apply pays_make_mut; [trivial|intros; apply drops]. Qed.

Lemma ways_pos : 1 <= ways.
Proof. unfold ways. pose proof (N.pow_nonzero 2 bits). lia. Qed.

Lemma bucket_small : forall index h b, bucket ubits dbg bits index h = Ok b -> N.to_nat b < ways.
Proof.
  intros index h b E. unfold bucket in E.
  destruct (umul ubits dbg h bits) as [s| |]; cbn [bind] in E; try discriminate.
  destruct (ushr ubits dbg index s) as [x| |]; cbn [bind] in E; try discriminate.
  unfold mask, degree, ushl in E. destruct (N.ltb_spec bits ubits); [|lia]. cbn [bind] in E.
  assert (P2 : (2 ^ bits < 2 ^ ubits)%N) by (apply N.pow_lt_mono_r; lia).
  rewrite N.shiftl_1_l in E. unfold wrap in E. rewrite N.mod_small in E by trivial.
  unfold usub in E. pose proof (N.pow_nonzero 2 bits).
  destruct (N.leb_spec 1 (2 ^ bits)); [|lia]. cbn [bind] in E.
  injection E as <-. rewrite <- N.pred_sub, <- N.ones_equiv, N.land_ones. unfold ways.
  pose proof (N.mod_lt x (2 ^ bits)). lia.
Qed.

Lemma hvn_get_pays : forall f c index h, pays f (@hvn_get ubits dbg T f bits c index h) any.
Proof.
  induction f as [|f IH]; intros c index h; cbn [hvn_get]; [exact I|].
  apply pay_lift; intros b _; destruct c as [a|a|x]; try exact I.
  - apply pay_lift. intros p _. apply pay_lift. intros h' _. apply pay_read; [lia|]. intros c' _.
    eapply pays_le; [apply IH|lia].
  - apply pay_lift. intros _ _. apply pay_lift. intros p _. apply pay_read; [lia|]. intros [?|?|x] _; exact I.
Qed.

Lemma hvn_assoc_pays : forall f index c x h, thin c ->
  pays (f * lev + 1 + credit + dc 1) (hvn_assoc ubits dbg f bits index c x h) thin.
Proof.
  induction f as [|f IH]; intros index c x h Tc; cbn [hvn_assoc]; [exact I|].
  apply pay_lift; intros b Eb. apply bucket_small in Eb. destruct c as [a|a|y]; try exact I.
  - apply pay_lift. intros _ _. destruct (nth_error a (N.to_nat b)) as [p|] eqn:En.
    + eapply pay_call; [apply mm_pays|lia|]. intros [p' c'] Tc'. apply pay_lift. intros h' _.
      eapply pay_call; [apply IH; exact Tc'|lia|]. intros c'' Tc''. apply pay_fill; [lia|trivial|].
      cbn. unfold thin in *. cbn in *. now rewrite put_length.
    + apply pay_lift. intros h' _. eapply pay_call with (R := thin); [apply IH| |].
      * unfold thin. destruct (1 <? h)%N; cbn; lia.
      * lia.
      * intros c' Tc'. apply pay_new; [lia|trivial|]. intros p. cbn. unfold thin. cbn. rewrite app_length. cbn.
        apply nth_error_None in En. lia.
  - apply pay_lift. intros _ _. destruct (N.eqb_spec (N.of_nat (length a)) b) as [<-|Ne].
    + apply pay_new; [lia|unfold thin; cbn; lia|]. intros p. cbn. unfold thin. cbn. rewrite app_length. cbn. lia.
    + apply pay_new; [lia|unfold thin; cbn; lia|]. intros p. apply pay_lift. intros old _.
      eapply pay_call; [apply drops|lia|]. intros _ _. cbn. unfold thin in *. cbn in *. now rewrite put_length.
Qed.

Lemma hvn_drop_last_pays : forall f c, thin c ->
  pays (f * (lev + dc 1)) (@hvn_drop_last T f c) (fun r => thin (fst r)).
Proof.
  induction f as [|f IH]; intros c Tc; cbn [hvn_drop_last]; [exact I|].
  destruct (hused c =? 0); [destruct c; first [exact Tc | exact I]|].
  eapply pay_call with (n1 := S f * (lev + dc 1)) (R := thin); [|lia|].
  - destruct c as [a|a|x]; [| |exact I].
    + apply pay_lift. intros p Ep. eapply pay_call; [apply mm_pays|lia|]. intros [p' d] Td.
      eapply pay_call; [apply IH; exact Td|lia|]. intros [d' e] Td'. apply pay_fill; [lia|exact Td'|]. destruct e.
      * eapply pay_call; [apply drops|lia|]. intros _ _. cbn. unfold thin in *. cbn in *.
        pose proof (removelast_length a). lia.
      * cbn. unfold thin in *. cbn in *. rewrite removelast_snoc_length; [trivial|].
        intros ->. discriminate.
    + apply pay_lift. intros p Ep. eapply pay_call; [apply drops|lia|]. intros _ _. cbn. unfold thin in *. cbn in *.
      pose proof (removelast_length a). lia.
  - intros c' Tc'. exact Tc'.
Qed.

Lemma hvn_get_mut_pays : forall f g c index h, thin c ->
  pays (f * lev) (@hvn_get_mut ubits dbg T f bits g c index h) thin.
Proof.
  induction f as [|f IH]; intros g c index h Tc; cbn [hvn_get_mut]; [exact I|].
  apply pay_lift; intros b _. destruct c as [a|a|y]; try exact I.
  - apply pay_lift. intros h' _. apply pay_lift. intros p _.
    eapply pay_call; [apply mm_pays|lia|]. intros [p' d] Td.
    eapply pay_call; [apply IH; exact Td|lia|]. intros d' Td'. apply pay_fill; [lia|exact Td'|].
    cbn. unfold thin in *. cbn in *. now rewrite put_length.
  - apply pay_lift. intros _ _. apply pay_lift. intros p _.
    eapply pay_call; [apply mm_pays|lia|]. intros [p' d] Td. destruct d as [|?|x]; try exact I.
    apply pay_fill; [lia|unfold thin; cbn; lia|]. cbn. unfold thin in *. cbn in *. now rewrite put_length.
Qed.

(** The height is that of a vector of the length recorded. *)
Lemma height_is : forall (v : hvec) h, hv_height (T := T) ubits dbg v = Ok h ->
  hv_bits v = bits -> (hv_length v < 2 ^ ubits)%N -> lv h = levels bits (hv_length v).
Proof.
  intros v h E B L. unfold hv_height in E.
  destruct (height_ok ubits dbg bits Hu Hb Hbu (hv_shape (T := T) v)) as (h' & E' & Hs); trivial.
  rewrite E in E'. injection E' as <-. now apply (height_levels ubits bits).
Qed.

(** A vector value with the parameter and a length. *)
Definition sized (n : N) (v : hvec) : Prop := hv_bits v = bits /\ hv_length v = n.

Lemma hv_get_pays : forall n v i, sized n v -> (n < 2 ^ ubits)%N ->
  pays (levels bits n + 1) (@hv_get ubits dbg T v i) any.
Proof.
  intros n v i [B L] Hn. unfold hv_get. destruct (_ <=? _)%N; [exact I|].
  apply pay_lift. intros h Eh. apply height_is in Eh; [|trivial|lia]. rewrite L in Eh. rewrite B.
  apply pay_read; [lia|]. intros c _. eapply pay_call; [apply hvn_get_pays|lia|]. intros x _. exact I.
Qed.

Lemma hv_first_pays : forall n v, sized n v -> (n < 2 ^ ubits)%N ->
  pays (levels bits n + 1) (@hv_first ubits dbg T v) any.
Proof. intros. now apply hv_get_pays. Qed.
Lemma hv_last_pays : forall n v, sized n v -> (n < 2 ^ ubits)%N ->
  pays (levels bits n + 1) (@hv_last ubits dbg T v) any.
Proof. intros n v S Hn. unfold hv_last. destruct (_ =? _)%N; [exact I|]. now apply hv_get_pays. Qed.

Definition assoc_price (n : N) : nat := (levels bits n + 1) * lev + 1 + credit + dc 1.

Lemma hv_assoc_pays : forall n v i x, sized n v -> (n < 2 ^ ubits)%N -> ((if n <=? i then n + 1 else n) < 2 ^ ubits)%N ->
  pays (assoc_price n) (@hv_assoc ubits dbg T v i x)
    (fun v' => sized (if (n <=? i)%N then n + 1 else n)%N v').
Proof.
  intros n v i x [B L] Hn Hi. unfold hv_assoc, assoc_price.
  apply pay_lift. intros _ _. apply pay_lift. intros h Eh. apply height_is in Eh; [|trivial|lia]. rewrite L in Eh.
  eapply pay_call; [apply mm_pays|lia|]. intros [r c] Tc. rewrite B.
  eapply pay_call; [apply hvn_assoc_pays; exact Tc|lia|]. intros c' Tc'. apply pay_fill; [lia|exact Tc'|].
  rewrite L. destruct (n <=? i)%N.
  - apply pay_lift. intros len El. unfold uadd in El. destruct (N.ltb_spec (n + 1) (2 ^ ubits)); [|lia].
    injection El as <-. split; trivial.
  - split; trivial.
Qed.

Lemma hv_set_mut_pays : forall n v i x, sized n v -> (n < 2 ^ ubits)%N ->
  pays (assoc_price n) (@hv_set_mut ubits dbg T v i x) any.
Proof.
  intros n v i x S Hn. unfold hv_set_mut. destruct (N.leb_spec (hv_length v) i) as [|Li]; [exact I|].
  assert (E : (n <=? i)%N = false) by (destruct S as [_ L]; apply N.leb_gt; lia).
  eapply pay_call; [apply (hv_assoc_pays n); trivial; now rewrite E|lia|]. intros v' _. exact I.
Qed.

Lemma assoc_price_mono : forall n m, (n <= m)%N -> assoc_price n <= assoc_price m.
Proof.
  intros n m H. unfold assoc_price. pose proof (levels_mono bits n m Hb H) as X.
  assert ((levels bits n + 1) * lev <= (levels bits m + 1) * lev) by (apply Nat.mul_le_mono_r; lia). lia.
Qed.

Lemma hv_push_pays : forall n v x, sized n v -> (n + 1 < 2 ^ ubits)%N ->
  pays (assoc_price (n + 1) + 2 + credit + dc 1) (@hv_push_back_mut ubits dbg T v x) (sized (n + 1)).
Proof.
  intros n v x [B L] Hn. unfold hv_push_back_mut. apply pay_lift. intros full _. destruct full.
  - apply pay_clone; [lia|]. apply pay_new; [lia|unfold thin; cbn; pose proof ways_pos; lia|]. intros r.
    eapply pay_call; [apply drops|lia|]. intros _ _. apply pay_lift. intros len El.
    unfold uadd in El. rewrite L in *. destruct (N.ltb_spec (n + 1) (2 ^ ubits)); [|lia]. injection El as <-.
    assert (E : (n + 1 <=? n)%N = false) by (apply N.leb_gt; lia).
    eapply pays_mono; [| |apply (hv_assoc_pays (n + 1) _ n x)]; [lia| |now split|lia|now rewrite E].
    intros v' S'. now rewrite E in S'.
  - rewrite L. eapply pays_mono; [| |apply (hv_assoc_pays n v n x); [now split|lia|now rewrite N.leb_refl]].
    + pose proof (assoc_price_mono n (n + 1) ltac:(lia)). lia.
    + intros v' S'. now rewrite N.leb_refl in S'.
Qed.

Lemma hv_extend_pays : forall xs n v, sized n v -> (n + len xs < 2 ^ ubits)%N ->
  pays (length xs * (assoc_price (n + len xs) + 2 + credit + dc 1)) (@hv_extend ubits dbg T v xs) any.
Proof.
  induction xs as [|x xs IH]; intros n v S Hn; cbn [hv_extend length]; [exact I|].
  rewrite len_cons in *. pose proof (assoc_price_mono (n + 1) (n + (len xs + 1)) ltac:(lia)).
  eapply pay_call; [apply (hv_push_pays n v x S); lia|cbn [Nat.mul]; lia|]. intros v' S'.
  eapply pays_le; [apply (IH _ _ S'); lia|].
  replace (n + 1 + len xs)%N with (n + (len xs + 1))%N by lia. cbn [Nat.mul]. lia.
Qed.

Lemma hv_drop_last_pays : forall n v, sized n v -> (n < 2 ^ ubits)%N ->
  pays ((levels bits n + 1) * (lev + dc 1)) (@hv_drop_last_mut ubits dbg T v) any.
Proof.
  intros n v [B L] Hn. unfold hv_drop_last_mut. destruct (_ <? _)%N; [|exact I].
  eapply pay_call; [apply mm_pays|lia|]. intros [r c] Tc.
  apply pay_lift. intros h Eh. apply height_is in Eh; [|trivial|lia]. rewrite L in Eh. rewrite Eh.
  eapply pay_call; [apply hvn_drop_last_pays; exact Tc|lia|]. intros [c' e] Tc'.
  apply pay_lift. intros len _.
  destruct c' as [[|p [|q l]]|a|x]; try (apply pay_fill; [lia|exact Tc'|exact I]).
  apply pay_fill; [lia|unfold thin; cbn; lia|]. eapply pay_call; [apply drops|lia|]. intros _ _. exact I.
Qed.

Lemma hv_get_mut_pays : forall n v i g, sized n v -> (n < 2 ^ ubits)%N ->
  pays ((levels bits n + 1) * lev) (@hv_get_mut ubits dbg T v i g) any.
Proof.
  intros n v i g [B L] Hn. unfold hv_get_mut. destruct (_ <=? _)%N; [exact I|].
  apply pay_lift. intros h Eh. apply height_is in Eh; [|trivial|lia]. rewrite L in Eh. rewrite Eh.
  eapply pay_call; [apply mm_pays|lia|]. intros [r c] Tc. rewrite B.
  eapply pay_call; [apply hvn_get_mut_pays; exact Tc|lia|]. intros c' Tc'. apply pay_fill; [lia|exact Tc'|exact I].
Qed.

Lemma hv_clone_pays : forall v, pays 1 (@hv_clone T v) (fun v' => v' = v).
Proof. intros v. unfold hv_clone. apply pay_clone; [lia|reflexivity]. Qed.

Lemma hv_drop_pays : forall d, (forall f, dc f <= d) -> forall v, pays d (@hv_drop ubits dbg T v) any.
Proof.
  intros d D v. unfold hv_drop. apply pay_lift. intros h _. eapply pays_le; [apply drops|apply D].
Qed.

Lemma persistently_pays : forall {X} d (op : hvec -> prog C (hvec * X)) keep v k, (forall f, dc f <= d) ->
  pays k (op v) any -> pays (1 + k + d) (persistently ubits dbg op keep v) any.
Proof.
  intros X d op keep v k D Sp. unfold persistently.
  eapply pay_call; [apply hv_clone_pays|lia|]. intros n ->.
  eapply pay_call; [exact Sp|lia|]. intros [n x] _. destruct (keep x);
  (eapply pay_call; [apply (hv_drop_pays d D)|lia|]; intros _ _; exact I).
Qed.
End Vec.

(** ** The calls *)
Section Calls.
Context (ubits : N) (dbg : bool) (bits : N) {T : Type}.
Hypothesis Hu : (8 <= ubits)%N.
Hypothesis Hb : (0 < bits)%N.
Hypothesis Hbu : (bits < ubits)%N.
Notation b := (ways bits).
Notation lev n := (levels bits n).
Notation thin := (@thin bits T).

(** Walking a whole tree: a full subtree, any subtree. *)
Notation rep := (VectorProofs.rep bits).
Notation dp := (VectorProofs.dp bits).

Lemma to_nat_len : forall l : list T, N.to_nat (len l) = length l.
Proof. intros l. unfold len. lia. Qed.

Lemma dp1_nat : 2 <= N.to_nat (dp 1).
Proof. pose proof (dp_1_ge ubits dbg bits Hu Hb Hbu). lia. Qed.

Lemma crep_span : forall (R : vnode T -> list T -> Prop) d cs m, crep R d cs m ->
  (N.of_nat (length cs) * d < len m + d)%N /\ (len m <= N.of_nat (length cs) * d)%N.
Proof.
  intros R d cs m Cr. induction Cr as [n m Hm B|n m cs ms Hm B Cr IHc]; cbn [length]; [lia|]. rewrite len_app. lia.
Qed.

Lemma walk_full : forall h (n : vnode T) l, rep h n l -> len l = dp (N.of_nat h + 1) -> walk n + 9 <= 11 * length l.
Proof.
  induction h as [|h IH]; intros n l R E; cbn [VectorProofs.rep] in R.
  - destruct R as [-> _]. cbn [walk]. pose proof dp1_nat as D. rewrite <- to_nat_len, E.
    change (N.of_nat 0 + 1)%N with 1%N. lia.
  - destruct R as (cs & -> & Cr & _). cbn [walk]. fold (walks cs).
    rewrite (dp_S ubits dbg bits Hu Hb Hbu) in E.
    pose proof (dp_pos ubits dbg bits Hu Hb Hbu (N.of_nat (S h))) as D.
    pose proof (dp_1_ge ubits dbg bits Hu Hb Hbu) as D2.
    replace (N.of_nat (S h)) with (N.of_nat h + 1)%N in * by lia. set (d := dp (N.of_nat h + 1)) in *.
    destruct (crep_span _ _ _ _ Cr) as [U1 U2].
    assert (K : N.of_nat (length cs) = dp 1) by (rewrite E in *; nia).
    assert (X : forall (cs : list (vnode T)) (m : list T), crep (rep h) d cs m -> len m = (N.of_nat (length cs) * d)%N ->
      walks cs + 5 * length cs <= 11 * length m).
    { clear - IH D. intros cs m Cr. induction Cr as [n m R B|n m cs ms R B Cr IHc]; intros E.
      - cbn [length] in E. pose proof (IH n m R ltac:(lia)) as Y.
        unfold walks. cbn [map length]. rewrite sum_cons. change (list_sum []) with 0. lia.
      - pose proof (IH n m R B) as Y. rewrite len_app in E. cbn [length] in *.
        assert (Z : len ms = (N.of_nat (length cs) * d)%N) by lia.
        specialize (IHc Z). rewrite app_length. unfold walks in *. cbn [map]. rewrite sum_cons. lia. }
    specialize (X _ _ Cr ltac:(nia)). lia.
Qed.

Lemma walk_rep : forall h (n : vnode T) l, rep h n l -> walk n <= 11 * length l + 4 + 5 * h.
Proof.
  induction h as [|h IH]; intros n l R; cbn [VectorProofs.rep] in R.
  - destruct R as [-> _]. cbn [walk]. lia.
  - destruct R as (cs & -> & Cr & _). cbn [walk]. fold (walks cs).
    replace (N.of_nat (S h)) with (N.of_nat h + 1)%N in Cr by lia.
    enough (walks cs <= 11 * length l + 8 + 5 * h) by lia.
    induction Cr as [n m R B|n m cs ms R B Cr IHc].
    + pose proof (IH _ _ R) as Y. unfold walks. cbn [map]. rewrite sum_cons. change (list_sum []) with 0. lia.
    + pose proof (walk_full _ _ _ R B) as Y. rewrite app_length. unfold walks in *. cbn [map]. rewrite sum_cons. lia.
Qed.


Definition vec_price (o : vec_op T) (l : list T) : nat :=
  let n := len l in
  match o with
  | VPush _ => (lev (n + 1) + 1) * (2 * b + 7) + 2 * b + 11
  | VPushMut _ => (lev (n + 1) + 1) * (2 * b + 7) + 2 * b + 9
  | VExtend xs => length xs * ((lev (n + len xs) + 1) * (2 * b + 7) + 2 * b + 9)
  | VDrop => (lev n + 1) * (2 * b + 8) + 2
  | VDropMut => (lev n + 1) * (2 * b + 8)
  | VSet _ _ => (lev n + 1) * (2 * b + 7) + b + 6
  | VSetMut _ _ => (lev n + 1) * (2 * b + 7) + b + 4
  | VGetMut _ _ => (lev n + 1) * (2 * b + 7)
  | VGet _ | VFirst | VLast => lev n + 1
  | VLen | VIsEmpty => 0
  | VIter ds => Nat.min (22 * length l + 10 * lev n) (length ds * (7 * lev n))
  end.

Definition vec_direct (o : vec_op T) : bool :=
  match o with VPush _ | VDrop | VSet _ _ => false | _ => true end.

Definition vec_limit_work (o : vec_op T) (l : list T) : nat :=
  let n := len l in
  match o with
  | VPushMut _ => (lev (n + 1) + 1) * (4 * b + 7) + 9
  | VExtend xs => length xs * ((lev (n + len xs) + 1) * (4 * b + 7) + 9)
  | VDropMut => (lev n + 1) * (4 * b + 10)
  | VSetMut _ _ => (lev n + 1) * (4 * b + 7) + 4
  | VGetMut _ _ => (lev n + 1) * (4 * b + 7)
  | VGet _ | VFirst | VLast => lev n + 1
  | VIter ds => Nat.min (22 * length l + 10 * lev n) (length ds * (7 * lev n))
  | _ => 0
  end.

Lemma v_drops : forall f a, pays (b + 2) thin 1 (drop_ptr (@vkids T) f a) any.
Proof. apply pays_drop. intros c Tc. unfold HeapWorkVec.thin in Tc. lia. Qed.
Lemma v_drops_raw : forall f a, pays 0 thin (raw b f) (drop_ptr (@vkids T) f a) any.
Proof. apply pays_drop_raw. trivial. Qed.

Lemma rep_sized : forall v (l : list T) G, hvrep ubits dbg bits v l G ->
  sized bits (len l) v /\ (len l < 2 ^ ubits)%N.
Proof.
  intros v l G (w & R & L & t & -> & _). destruct (rep_bits bits w l R) as [B1 B2]. split.
  - now split.
  - pose proof (limit_lt' ubits dbg bits Hu Hb Hbu). lia.
Qed.


(** All calls but iteration; the reads of an iterator are bounded with [looks]. *)
Definition still (o : vec_op T) : Prop := match o with VIter _ => False | _ => True end.

Lemma hv_step_pays : forall o v (l : list T) G, still o -> hvrep ubits dbg bits v l G ->
  (len (fst (vec_spec o l)) <= vec_limit ubits dbg bits)%N ->
  pays (b + 2) thin (vec_price o l) (hv_step ubits dbg o v) any.
Proof.
  intros o v l G St R Hl. destruct (rep_sized _ _ _ R) as [Sz Hn].
  pose proof (limit_lt' ubits dbg bits Hu Hb Hbu) as LL.
  assert (one : forall f : nat, (fun _ => 1) f <= 1) by trivial.
  destruct o; cbn [hv_step vec_price]; try exact I; cbn [vec_spec fst] in Hl.
  - rewrite len_app, len_cons, len_nil in Hl.
    eapply pay_call; [eapply (persistently_pays ubits dbg bits Hu Hb Hbu (b + 2) _ v_drops 1 _ _ _ _ one)| |].
    + eapply pay_call; [eapply (hv_push_pays ubits dbg bits Hu Hb Hbu (b + 2) _ v_drops _ _ _ Sz); lia|reflexivity|].
      intros n _. exact I.
    + unfold assoc_price. lia.
    + intros [v' x] _. exact I.
  - rewrite len_app, len_cons, len_nil in Hl.
    eapply pay_call; [eapply (hv_push_pays ubits dbg bits Hu Hb Hbu (b + 2) _ v_drops _ _ _ Sz); lia| |].
    + unfold assoc_price. lia.
    + intros n _. exact I.
  - rewrite len_app in Hl.
    eapply pay_call; [eapply (hv_extend_pays ubits dbg bits Hu Hb Hbu (b + 2) _ v_drops _ _ _ Sz); lia| |].
    + apply Nat.mul_le_mono_l. unfold assoc_price. lia.
    + intros n _. exact I.
  - eapply pay_call; [eapply (persistently_pays ubits dbg bits Hu Hb Hbu (b + 2) _ v_drops 1 _ _ _ _ one)| |].
    + eapply (hv_drop_last_pays ubits dbg bits Hu Hb Hbu (b + 2) _ v_drops _ _ Sz Hn).
    + lia.
    + intros [v' x] _. exact I.
  - eapply pay_call; [eapply (hv_drop_last_pays ubits dbg bits Hu Hb Hbu (b + 2) _ v_drops _ _ Sz Hn)|lia|].
    intros [v' x] _. exact I.
  - eapply pay_call; [eapply (persistently_pays ubits dbg bits Hu Hb Hbu (b + 2) _ v_drops 1 _ _ _ _ one)| |].
    + eapply (hv_set_mut_pays ubits dbg bits Hu Hb Hbu (b + 2) _ v_drops _ _ _ _ Sz Hn).
    + unfold assoc_price. lia.
    + intros [v' x] _. exact I.
  - eapply pay_call; [eapply (hv_set_mut_pays ubits dbg bits Hu Hb Hbu (b + 2) _ v_drops _ _ _ _ Sz Hn)| |].
    + unfold assoc_price. lia.
    + intros [v' x] _. exact I.
  - eapply pay_call; [eapply (hv_get_mut_pays ubits dbg bits Hu Hb Hbu (b + 2) _ v_drops _ _ _ _ Sz Hn)|lia|].
    intros [v' x] _. exact I.
  - eapply pay_call; [eapply (hv_get_pays ubits dbg bits Hu Hb Hbu (b + 2) _ _ _ Sz Hn)|lia|]. intros x _. exact I.
  - eapply pay_call; [eapply (hv_first_pays ubits dbg bits Hu Hb Hbu (b + 2) _ _ Sz Hn)|lia|]. intros x _. exact I.
  - eapply pay_call; [eapply (hv_last_pays ubits dbg bits Hu Hb Hbu (b + 2) _ _ Sz Hn)|lia|]. intros x _. exact I.
  - destruct St.
Qed.

Lemma hv_step_direct : forall o v (l : list T) G, still o -> hvrep ubits dbg bits v l G ->
  (len (fst (vec_spec o l)) <= vec_limit ubits dbg bits)%N -> vec_direct o = true ->
  pays 0 thin (vec_limit_work o l) (hv_step ubits dbg o v) any.
Proof.
  intros o v l G St R Hl D. destruct (rep_sized _ _ _ R) as [Sz Hn].
  pose proof (limit_lt' ubits dbg bits Hu Hb Hbu) as LL.
  assert (R1 : raw b 1 = 3) by (cbn [raw]; lia). assert (R2 : raw b 2 = 3 + b * 3) by (cbn [raw]; lia).
  destruct o; try discriminate; cbn [hv_step vec_limit_work]; try exact I; cbn [vec_spec fst] in Hl.
  - rewrite len_app, len_cons, len_nil in Hl.
    eapply pay_call; [eapply (hv_push_pays ubits dbg bits Hu Hb Hbu 0 _ v_drops_raw _ _ _ Sz); lia| |].
    + unfold assoc_price. rewrite R1, R2. apply Nat.eq_le_incl. ring.
    + intros n _. exact I.
  - rewrite len_app in Hl.
    eapply pay_call; [eapply (hv_extend_pays ubits dbg bits Hu Hb Hbu 0 _ v_drops_raw _ _ _ Sz); lia| |].
    + apply Nat.mul_le_mono_l. unfold assoc_price. rewrite R1, R2. apply Nat.eq_le_incl. ring.
    + intros n _. exact I.
  - eapply pay_call; [eapply (hv_drop_last_pays ubits dbg bits Hu Hb Hbu 0 _ v_drops_raw _ _ Sz Hn)| |].
    + rewrite R1, R2. apply Nat.mul_le_mono_l. lia.
    + intros [v' x] _. exact I.
  - eapply pay_call; [eapply (hv_set_mut_pays ubits dbg bits Hu Hb Hbu 0 _ v_drops_raw _ _ _ _ Sz Hn)| |].
    + unfold assoc_price. rewrite R1, R2. apply Nat.eq_le_incl. ring.
    + intros [v' x] _. exact I.
  - eapply pay_call; [eapply (hv_get_mut_pays ubits dbg bits Hu Hb Hbu 0 _ v_drops_raw _ _ _ _ Sz Hn)| |].
    + rewrite R2. apply Nat.mul_le_mono_l. lia.
    + intros [v' x] _. exact I.
  - eapply pay_call; [eapply (hv_get_pays ubits dbg bits Hu Hb Hbu 0 _ _ _ Sz Hn)|lia|]. intros x _. exact I.
  - eapply pay_call; [eapply (hv_first_pays ubits dbg bits Hu Hb Hbu 0 _ _ Sz Hn)|lia|]. intros x _. exact I.
  - eapply pay_call; [eapply (hv_last_pays ubits dbg bits Hu Hb Hbu 0 _ _ Sz Hn)|lia|]. intros x _. exact I.
  - destruct St.
Qed.

Lemma hv_iter_cost : forall v (l : list T) G ds, hvrep ubits dbg bits v l G ->
  looks (Nat.min (22 * length l + 10 * lev (len l)) (length ds * (7 * lev (len l)))) (hv_iter ubits dbg v ds) G
    (fun r => r = de_spec ds l).
Proof.
  intros v l G ds (w & R & L & t & Ev & Vt & ->).
  eapply looks_le; [apply (hv_iter_looks ubits dbg bits Hu Hb Hbu v l _ ds w t R L Ev Vt); apply lent_in; now left|].
  destruct R as (_ & _ & h & Hs & R). pose proof (walk_rep h _ _ R) as W.
  pose proof (height_levels ubits bits Hu Hb Hbu _ _ Hs) as E. lia.
Qed.

Lemma iter_dear : forall credit v (l : list T) G ds, hvrep ubits dbg bits v l G ->
  dear vkids credit thin (Nat.min (22 * length l + 10 * lev (len l)) (length ds * (7 * lev (len l))))
    (hv_step ubits dbg (VIter ds) v) G
    (fun r G' => snd r = snd (vec_spec (VIter ds) l) /\ hvrep ubits dbg bits (fst r) (fst (vec_spec (VIter ds) l)) G').
Proof.
  intros credit v l G ds R. cbn [hv_step].
  apply looks_dear with (Q := fun r => r = (v, OSteps (de_spec ds l))).
  - rewrite <- (Nat.add_0_r (Nat.min _ _)). eapply looks_bind; [apply (hv_iter_cost v l G ds R)|]. intros x ->. reflexivity.
  - intros x ->. auto.
Qed.

Lemma hv_step_dear : forall o v (l : list T) G, hvrep ubits dbg bits v l G ->
  (len (fst (vec_spec o l)) <= vec_limit ubits dbg bits)%N ->
  dear vkids (b + 2) thin (vec_price o l) (hv_step ubits dbg o v) G
    (fun r G' => snd r = snd (vec_spec o l) /\ hvrep ubits dbg bits (fst r) (fst (vec_spec o l)) G').
Proof.
  intros o v l G R F. assert (S := hv_step_ok ubits dbg bits Hu Hb Hbu o _ _ _ R F).
  assert (P := fun St => hv_step_pays o v l G St R F).
  destruct o; try exact (safe_pays _ _ _ _ _ _ _ _ _ S (P I)). apply (iter_dear _ _ _ _ _ R).
Qed.

Lemma hv_step_direct_dear : forall o v (l : list T) G, hvrep ubits dbg bits v l G ->
  (len (fst (vec_spec o l)) <= vec_limit ubits dbg bits)%N -> vec_direct o = true ->
  dear vkids 0 thin (vec_limit_work o l) (hv_step ubits dbg o v) G
    (fun r G' => snd r = snd (vec_spec o l) /\ hvrep ubits dbg bits (fst r) (fst (vec_spec o l)) G').
Proof.
  intros o v l G R F D. assert (S := hv_step_ok ubits dbg bits Hu Hb Hbu o _ _ _ R F).
  assert (P := fun St => hv_step_direct o v l G St R F D).
  destruct o; try exact (safe_pays _ _ _ _ _ _ _ _ _ S (P I)). apply (iter_dear _ _ _ _ _ R).
Qed.
End Calls.
