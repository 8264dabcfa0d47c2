(** * Vector, List and Queue on the shared heap when user code panics

    User code that these collections run while they change something: [Clone::clone] of an
    element, in [Vector::get_mut] when the element is shared, and [Iterator::next] of the iterator
    given to [extend] and [from_iter].  As in HeapCrashRB.v a counter [n] says how many user calls
    still return; the call made when it is 0 unwinds.  [IntoIterator::into_iter] and [size_hint],
    which come before anything has been done, are not counted, and user code that panics in [Drop]
    is not modelled here.  Comparisons, [Hash], [Debug] and [Display] only read. *)
From Coq Require Import List NArith Arith Lia Bool Permutation.
From Verif Require Import Base Spec PermSolve VectorModel VectorProofs VectorOps CrashModel HeapModel HeapProofs HeapSafe
  HeapVec HeapVecProofs HeapList HeapListProofs HeapSeqProofs.
Import ListNotations.
Local Open Scope prog_scope.

(** Calls of a client: those of the other files, and [x = iter.collect()]. *)
Inductive with_collect (Op T : Type) := Call (o : Op) | Collect (xs : list T).
Arguments Call {Op T}.
Arguments Collect {Op T}.

Section Prog.
Variable ubits : N.
Variable dbg : bool.
Context {T : Type}.
Notation C := (vcell T).
Notation P := (prog C).

(** [make_mut] on an element: if it is shared it is cloned before anything changes.  Memory that
    std reserves for the copy and gives back when the clone unwinds does not show. *)
Definition xelem_mut (n : nat) (a : addr) : P (crash unit (addr * C)) :=
  Take a (fun r =>
    match r with
    | Some c => Ret (Done n (a, c))
    | None =>
        Read a (fun c =>
          match n with
          | 0 => Ret (Unwound tt)
          | S n =>
              clone_all (vkids c)
                (Reserve (fun a' => let* _ := drop_ptr vkids 2 a in Ret (Done n (a', c))))
          end)
    end).

(** vector/mod.rs:222-239, and a write through the reference returned.  When the clone unwinds the
    nodes on the way keep their pointers. *)
Fixpoint xvn_get_mut (f n : nat) (bits : N) (g : T -> T) (c : C) (index height : N) : P (crash C C) :=
  match f with
  | 0 => Fail
  | S f' =>
      let* b := lift (bucket ubits dbg bits index height) in
      match c with
      | VB a =>
          let* h := lift (usub ubits dbg height 1) in
          let* p := lift (index_nth a b) in
          let* (p', d) := make_mut vkids p in
          let* r := xvn_get_mut f' n bits g d index h in
          match r with
          | Unwound d' => Fill p' d' (Ret (Unwound (VB (put a (N.to_nat b) p'))))
          | Done n d' => Fill p' d' (Ret (Done n (VB (put a (N.to_nat b) p'))))
          end
      | VL a =>
          let* _ := lift (debug_assert dbg (height =? 0)%N) in
          let* p := lift (index_nth a b) in
          let* r := xelem_mut n p in
          match r with
          | Unwound _ => Ret (Unwound (VL a))
          | Done n (p', VE x) => Fill p' (VE (g x)) (Ret (Done n (VL (put a (N.to_nat b) p'))))
          | Done _ _ => Fail
          end
      | VE _ => Fail
      end
  end.

(** vector/mod.rs:494-507, and a write *)
Definition xv_get_mut (n : nat) (v : hvec) (index : N) (g : T -> T) : P (crash hvec (hvec * bool)) :=
  if (hv_length v <=? index)%N then Ret (Done n (v, false))
  else
    let* h := lift (hv_height ubits dbg (T := T) v) in
    let* (r, c) := make_mut vkids (hv_root v) in
    let* x := xvn_get_mut (lv h) n (hv_bits v) g c index h in
    match x with
    | Unwound c' => Fill r c' (Ret (Unwound (mkHV r (hv_bits v) (hv_length v))))
    | Done n c' => Fill r c' (Ret (Done n (mkHV r (hv_bits v) (hv_length v), true)))
    end.

(** vector/mod.rs:638-647: one call of [next] for each element, and one for the end *)
Fixpoint xv_extend (n : nat) (v : hvec) (xs : list T) : P (crash hvec hvec) :=
  match n with
  | 0 => Ret (Unwound v)
  | S n' =>
      match xs with
      | [] => Ret (Done n' v)
      | x :: xs' => let* v' := hv_push_back_mut ubits dbg v x in xv_extend n' v' xs'
      end
  end.

(** vector/mod.rs:627-636: [vector] is a local, dropped when [extend] unwinds *)
Definition xv_from_iter (n : nat) (xs : list T) : P (crash unit hvec) :=
  let* v := hv_new DEFAULT_BITS in
  let* r := xv_extend n v xs in
  match r with
  | Unwound v => let* _ := hv_drop ubits dbg (T := T) v in Ret (Unwound tt)
  | Done n v => Ret (Done n v)
  end.

(** One call, the [n]-th user call of which (from 0) unwinds, and what the client sees of it:
    [None] if it unwound. *)
Definition xv_step (no : nat * with_collect (vec_op T) T) (v : hvec) : P (hvec * option (obs T)) :=
  let (n, o) := no in
  match o with
  | Call (VGetMut i g) =>
      let* r := xv_get_mut n v i g in
      match r with
      | Unwound v => Ret (v, None)
      | Done _ (v, b) => Ret (v, Some (OBool b))
      end
  | Call (VExtend xs) =>
      let* r := xv_extend n v xs in
      match r with
      | Unwound v => Ret (v, None)
      | Done _ v => Ret (v, Some OUnit)
      end
  | Call o => let* (v, x) := hv_step ubits dbg o v in Ret (v, Some x)
  | Collect xs =>
      let* r := xv_from_iter n xs in
      match r with
      | Unwound _ => Ret (v, None)
      | Done _ w => let* _ := hv_drop ubits dbg (T := T) v in Ret (w, Some OUnit)
      end
  end.

(** list/mod.rs:384-400: everything the iterator yields goes into a [Vec] first, which is dropped
    when [next] unwinds; no cell has been touched by then. *)
Definition xl_from_iter (n : nat) (xs : list T) : prog (lcell T) (option hlist) :=
  if n <=? length xs then Ret None else let* l := hlp_from_iter xs in Ret (Some l).
Definition xl_step (no : nat * list_op T) (l : hlist) : prog (lcell T) (hlist * option (obs T)) :=
  match snd no with
  | LFromIter xs =>
      let* r := xl_from_iter (fst no) xs in
      match r with
      | None => Ret (l, None)
      | Some l' => let* _ := hlp_drop l in Ret (l', Some OUnit)
      end
  | o => let* (l, x) := hl_step o l in Ret (l, Some x)
  end.
(** queue/mod.rs:289-296 *)
Definition xq_step (no : nat * queue_op T) (q : hqueue) : prog (lcell T) (hqueue * option (obs T)) :=
  match snd no with
  | QFromIter xs =>
      let* r := xl_from_iter (fst no) xs in
      match r with
      | None => Ret (q, None)
      | Some l => let* _ := hq_drop q in Ret (mkHQ hl_new l, Some OUnit)
      end
  | o => let* (q, x) := hq_step o q in Ret (q, Some x)
  end.
(** stack/mod.rs:260-267, and the calls of HeapList.v *)
Definition xs_step (no : nat * with_collect (stack_op T) T) (l : hlist) : prog (lcell T) (hlist * option (obs T)) :=
  let (n, o) := no in
  match o with
  | Collect xs =>
      let* r := xl_from_iter n xs in
      match r with
      | None => Ret (l, None)
      | Some l' => let* _ := hlp_drop l in Ret (l', Some OUnit)
      end
  | Call o => let* (l, x) := hs_step o l in Ret (l, Some x)
  end.
End Prog.

Section VP.
Variable ubits : N.
Variable dbg : bool.
Variable bits : N.
Hypothesis Hu : (8 <= ubits)%N.
Hypothesis Hb : (0 < bits)%N.
Hypothesis Hbu : (bits < ubits)%N.
Context {T : Type}.
Notation C := (vcell T).
Notation own := (@own C).
Notation ptree := (@ptree C).
Notation safe := (safe (@vkids T)).
Notation limit := (vec_limit ubits dbg bits).
Notation hvrep := (hvrep ubits dbg bits).

Ltac seq n1 n2 G1 F tac := eapply (safe_seq _ _ _ n1 n2 _ _ G1 F); [tac|perm| |lia].
Ltac inv H x E := apply lift_inv in H; destruct H as (x & E & H).

Lemma xelem_mut_ok : forall n a (x : T),
  safe 1 (xelem_mut n a) [Tree (PT a (VE x) [])]
    (fun r G => match r with
                | Unwound _ => n = 0 /\ G = [Tree (PT a (VE x) [])]
                | Done _ (a', c) => c = VE x /\ G = [Held a']
                end).
Proof using.
  clear Hu Hb Hbu. intros n a x. unfold xelem_mut. exists (VE x), [], []. split; [apply Permutation_refl|]. split.
  - exists (VE x), []. split; [exists (PT a (VE x) []); split; [now left|constructor]|].
    intros _. destruct n as [|n]; [apply safe_ret; auto|].
    cbn [clone_all vkids]. exists 0. split; [reflexivity|]. intros a'.
    change (drop_ptr vkids 2 a) with (drop_ptr (@vkids T) 2 (pa (PT a (VE x) []))).
    eapply (safe_seq _ _ _ 0 0 _ _ [Tree (PT a (VE x) [])] [Held a']); [apply safe_drop; cbn; lia|perm| |lia].
    intros [] G' ->. apply safe_ret. auto.
  - intros _ _. exists [Held a]. split; [apply Permutation_refl|]. auto.
Qed.

Lemma xvn_get_mut_ok : forall f n g index height m m' c ts,
  vn_get_mut ubits dbg f bits g m index height = Ok m' -> udep m height -> vcont m c ts ->
  safe (lv height) (xvn_get_mut ubits dbg (lv height) n bits g c index height) (map Tree ts)
    (fun r G => match r with
                | Unwound c' => n = 0 /\ exists ts', G = map Tree ts' /\ vcont m c' ts'
                | Done _ c' => exists ts', G = map Tree ts' /\ vcont m' c' ts'
                end).
Proof using Hu Hb Hbu.
  induction f as [|f IH]; intros n g index height m m' c ts E U V; [discriminate|].
  cbn [vn_get_mut] in E. unfold lv at 2. cbn [xvn_get_mut]. inv E b Eb. rewrite Eb. cbn [lift pbind].
  destruct V as [ns ts F|xs ts F].
  - inversion U as [|? ? Hh Un]; subst. rewrite (lv_pred ubits bits Hu Hb Hbu height Hh). rewrite (usub1 ubits dbg bits Hu Hb Hbu height Hh) in *.
    cbn [bind lift pbind] in *. inv E r Er. injection E as <-.
    destruct (update_some _ _ _ _ Er) as (n0 & En).
    destruct (Forall2_nth _ _ _ _ _ F En) as (l1 & l2 & m1 & y & m2 & -> & -> & L1 & L2 & Vy & F1 & F2).
    rewrite <- L2 in Er. destruct (update_app _ _ _ _ _ Er) as (s & Es & ->).
    unfold index_nth. rewrite map_app at 1. cbn [map]. rewrite <- L1. rewrite <- (map_length pa m1) at 1.
    rewrite nth_app_len. cbn [unwrap lift pbind].
    inversion Vy as [? a c ts Vc]; subst. cbn [pa]. rewrite (map_app Tree). cbn [map].
    eapply (safe_seq _ _ _ 1 (lv (height - 1)) _ _ [Tree (PT a c ts)] (map Tree m1 ++ map Tree m2));
      [apply safe_make_mut|perm| |unfold lv; lia].
    intros r G (a' & -> & ->). cbn [app].
    seq (lv (height - 1)) 0 (map Tree ts) (Held a' :: map Tree m1 ++ map Tree m2)
      ltac:(apply (IH n g index (height - 1)%N n0 s c ts Es); [apply Un; apply in_app_iff; right; now left|exact Vc]).
    assert (X : forall k d ts', vcont k d ts' ->
      vcont (VBranch (l1 ++ k :: l2)) (VB (put (map pa (m1 ++ PT a c ts :: m2)) (length m1) a')) (m1 ++ PT a' d ts' :: m2)).
    { intros k d ts' Vk. replace (put (map pa (m1 ++ PT a c ts :: m2)) (length m1) a') with (map pa (m1 ++ PT a' d ts' :: m2)).
      - constructor. apply Forall2_app; trivial. constructor; trivial. now constructor.
      - rewrite !map_app. cbn [map pa]. rewrite <- (map_length pa m1), put_app. trivial. }
    intros [left c'|c'] G H.
    + destruct H as (ts' & -> & V'). cbn [HeapSafe.safe].
      exists ts', (map Tree m1 ++ map Tree m2). splits; [perm|eapply vcont_kids; exact V'|].
      exists (map Tree (m1 ++ PT a' c' ts' :: m2)). split; [rewrite map_app; cbn [map]; perm|].
      exists (m1 ++ PT a' c' ts' :: m2). split; trivial. now apply X.
    + destruct H as (-> & ts' & -> & V'). cbn [HeapSafe.safe].
      exists ts', (map Tree m1 ++ map Tree m2). splits; [perm|eapply vcont_kids; exact V'|].
      exists (map Tree (m1 ++ PT a' c' ts' :: m2)). split; [rewrite map_app; cbn [map]; perm|].
      split; trivial. exists (m1 ++ PT a' c' ts' :: m2). split; trivial. now apply X.
  - inversion U; subst. inv E u Ed. rewrite Ed. cbn [lift pbind]. inv E r Er. injection E as <-.
    destruct (update_some _ _ _ _ Er) as (x & Ex).
    destruct (Forall2_nth _ _ _ _ _ F Ex) as (l1 & l2 & m1 & y & m2 & -> & -> & L1 & L2 & Vy & F1 & F2).
    rewrite <- L2 in Er. destruct (update_app _ _ _ _ _ Er) as (s & Es & ->). injection Es as <-.
    unfold index_nth. rewrite map_app at 1. cbn [map]. rewrite <- L1. rewrite <- (map_length pa m1) at 1.
    rewrite nth_app_len. cbn [unwrap lift pbind]. destruct Vy as [p]. cbn [pa].
    rewrite (map_app Tree). cbn [map]. change (lv 0) with 1.
    seq 1 0 [Tree (PT p (VE x) [])] (map Tree m1 ++ map Tree m2) ltac:(apply xelem_mut_ok).
    intros [left [a' d]|[]] G H.
    + destruct H as (-> & ->). cbn [HeapSafe.safe map app].
      exists [], (map Tree m1 ++ map Tree m2). splits; [perm|reflexivity|].
      exists (map Tree (m1 ++ PT a' (VE (g x)) [] :: m2)). split; [rewrite map_app; cbn [map]; perm|].
      exists (m1 ++ PT a' (VE (g x)) [] :: m2). split; trivial.
      replace (put (map pa (m1 ++ PT p (VE x) [] :: m2)) (length m1) a')
        with (map pa (m1 ++ PT a' (VE (g x)) [] :: m2)).
      * constructor. apply Forall2_app; trivial. repeat constructor. trivial.
      * rewrite !map_app. cbn [map pa]. rewrite <- (map_length pa m1), put_app. trivial.
    + destruct H as (-> & ->). exists (map Tree (m1 ++ PT p (VE x) [] :: m2)).
      split; [rewrite map_app; cbn [map app]; perm|]. split; trivial.
      exists (m1 ++ PT p (VE x) [] :: m2). split; trivial.
      constructor. apply Forall2_app; trivial. repeat constructor. trivial.
Qed.

Lemma xv_get_mut_ok : forall n v l G i g, hvrep v l G ->
  safe (levels bits (len l) + 1) (xv_get_mut ubits dbg n v i g) G
    (fun r G' => match r with
                 | Unwound v' => n = 0 /\ in_range i l = true /\ hvrep v' l G'
                 | Done _ (v', b) => b = in_range i l /\ hvrep v' (map_at_N g i l) G'
                 end).
Proof using Hu Hb Hbu.
  intros n v l G i g (w & R & L & Tw). pose proof (limit_lt' ubits dbg bits Hu Hb Hbu).
  destruct (v_get_mut_ok ubits dbg bits Hu Hb Hbu w l i g R) as (w' & E & R'); [lia|].
  destruct (rep_height ubits dbg bits Hu Hb Hbu w l R L) as (h & Hh & U & Eh & _). destruct (rep_bits bits w l R) as [B1 B2].
  assert (L' : (len (map_at_N g i l) <= limit)%N).
  { unfold map_at_N. destruct (in_range i l); trivial. unfold len. rewrite map_at_length. exact L. }
  pose proof Tw as (t & -> & Vt & ->). unfold v_get_mut in E. unfold xv_get_mut. cbn [hv_length hv_bits hv_root].
  destruct (v_length w <=? i)%N eqn:Ei.
  - injection E as <- Er. apply safe_ret. split; trivial. exists w. splits; trivial.
  - change (hv_height ubits dbg (mkHV (pa t) (v_bits w) (v_length w))) with (v_height ubits dbg w).
    rewrite Hh in *. cbn [bind lift pbind] in *. inv E r Er. injection E as <- Eb.
    destruct t as [a c ts]. assert (Vc : vcont (v_root w) c ts) by now inversion Vt.
    cbn [pa]. rewrite B1 in *.
    seq 1 (S h) [Tree (PT a c ts)] (@nil own) ltac:(apply safe_make_mut).
    intros r0 G (a' & -> & ->). rewrite app_nil_r.
    seq (S h) 0 (map Tree ts) [Held (C := C) a'] ltac:(rewrite <- (lv_nat ubits bits Hu Hb Hbu h) at 1; apply (xvn_get_mut_ok _ _ _ _ _ _ _ _ _ Er U Vc)).
    intros [left c'|c'] G H0.
    + destruct H0 as (ts' & -> & V'). exists ts', []. splits; [perm|eapply vcont_kids; exact V'|].
      apply safe_ret. split; trivial. eexists. splits; [exact R'|trivial|].
      exists (PT a' c' ts'). splits; trivial. now constructor.
    + destruct H0 as (-> & ts' & -> & V'). exists ts', []. splits; [perm|eapply vcont_kids; exact V'|].
      apply safe_ret. splits; trivial; [now rewrite <- Eb|]. exists w. splits; [exact R|trivial|].
      exists (PT a' c' ts'). splits; trivial; [|now constructor]. cbn [pa]. now rewrite (proj1 (rep_bits bits w l R)).
Qed.

(** Both outcomes of [extend]: the elements taken before the panic are in. *)
Lemma xv_extend_ok : forall xs n v l G, hvrep v l G -> (len l + len xs <= limit)%N ->
  safe (length xs * (levels bits (len l + len xs) + 2)) (xv_extend ubits dbg n v xs) G
    (fun r G' => match r with
                 | Unwound v' => n <= length xs /\ hvrep v' (l ++ firstn n xs) G'
                 | Done _ v' => length xs < n /\ hvrep v' (l ++ xs) G'
                 end).
Proof using Hu Hb Hbu.
  induction xs as [|x xs IH]; intros n v l G R L; (destruct n as [|n]; cbn [xv_extend length firstn]).
  - apply safe_ret. split; [lia|]. now rewrite app_nil_r.
  - apply safe_ret. split; [lia|]. now rewrite app_nil_r.
  - apply safe_ret. split; [lia|]. now rewrite app_nil_r.
  - rewrite len_cons in *. set (k := levels bits (len l + (len xs + 1))) in *.
    assert (levels bits (len l + 1) <= k) by (apply levels_mono; trivial; lia).
    eapply (safe_seq _ _ _ (k + 2) (length xs * (k + 2)) _ _ G []); [|perm| |cbn [length]; lia].
    + eapply safe_mono with (Q := fun v' G' => hvrep v' (l ++ [x]) G');
        [| |apply (hv_push_ok ubits dbg bits Hu Hb Hbu v l G x R)]; [lia| |lia].
      intros v' G' R'. exact R'.
    + cbn beta. intros v' G' R'. rewrite app_nil_r.
      eapply safe_mono; [| |apply (IH n v' (l ++ [x]) G' R')].
      * rewrite len_app, len_cons, len_nil. unfold k.
        replace (len l + (0 + 1) + len xs)%N with (len l + (len xs + 1))%N by lia. lia.
      * intros [left v2|v2] G2 (Hn & R2); rewrite <- app_assoc in R2; (split; [lia|exact R2]).
      * rewrite len_app, len_cons, len_nil. lia.
Qed.

(** ** One call *)
Definition vec_xspec (o : with_collect (vec_op T) T) (l : list T) : list T * obs T :=
  match o with Call o => vec_spec o l | Collect xs => (xs, OUnit) end.

(** [vec_after (n, o) l l' x]: what the call [o], the [n]-th user call of which unwinds if it comes
    to that, may leave of [l] and deliver. *)
Definition vec_after (no : nat * with_collect (vec_op T) T) (l l' : list T) (x : option (obs T)) : Prop :=
  let (n, o) := no in
  match x with
  | Some y =>
      (l', y) = vec_xspec o l /\
      match o with Call (VExtend xs) | Collect xs => length xs < n | _ => True end
  | None =>
      match o with
      | Call (VGetMut i _) => n = 0 /\ (i < N.of_nat (length l))%N /\ l' = l
      | Call (VExtend xs) => n <= length xs /\ l' = l ++ firstn n xs
      | Collect xs => n <= length xs /\ l' = l
      | _ => False
      end
  end.

(** The calls spoken of: the result is within the limit of C11; [collect] makes a vector of
    DEFAULT_BITS. *)
Definition vec_fits (no : nat * with_collect (vec_op T) T) (l : list T) : Prop :=
  (N.of_nat (length (fst (vec_xspec (snd no) l))) <= vec_limit ubits dbg bits)%N /\
  match snd no with Collect _ => bits = 5%N | _ => True end.

Definition vec_xcost (no : nat * with_collect (vec_op T) T) (s : nat) : nat :=
  match snd no with
  | Call (VPush _) | Call (VPushMut _) => levels bits (N.of_nat s + 1) + 2
  | Call (VExtend xs) => length xs * (levels bits (N.of_nat s + len xs) + 2)
  | Call (VSet _ _) | Call (VSetMut _ _) | Call (VGetMut _ _) => levels bits (N.of_nat s) + 1
  | Call VDrop | Call VDropMut => levels bits (N.of_nat s)
  | Collect xs => 1 + length xs * (levels bits (len xs) + 2)
  | _ => 0
  end.
Definition vec_grow (no : nat * with_collect (vec_op T) T) : nat :=
  match snd no with
  | Call (VPush _) | Call (VPushMut _) => 1
  | Call (VExtend xs) | Collect xs => length xs
  | _ => 0
  end.

Lemma vec_xcost_mono : forall no n m, n <= m -> vec_xcost no n <= vec_xcost no m.
Proof using Hb.
  clear Hu Hbu. intros [n o] s m H.
  assert (X : forall k, levels bits (N.of_nat s + k) <= levels bits (N.of_nat m + k)) by (intros; apply levels_mono; [trivial|lia]).
  assert (Y := X 0%N). rewrite !N.add_0_r in Y.
  destruct o as [[]|]; unfold vec_xcost; cbn [snd]; try lia; try (specialize (X 1%N); lia).
  apply Nat.mul_le_mono_l. specialize (X (len l)). lia.
Qed.

Lemma vec_spec_size : forall (o : vec_op T) l, length (fst (vec_spec o l)) <= vec_grow (0, Call o) + length l.
Proof using.
  clear Hu Hb Hbu. intros o l.
  assert (RL : forall l : list T, length (removelast l) <= length l).
  { induction l0 as [|a [|b l0] IH]; cbn [removelast length] in *; lia. }
  assert (ML : forall i (f : T -> T), length (map_at_N f i l) = length l).
  { intros i f. unfold map_at_N. destruct (in_range i l); trivial. apply map_at_length. }
  destruct o; cbn [vec_spec fst vec_grow snd]; rewrite ?app_length, ?ML; cbn [length]; try lia; specialize (RL l); cbn; lia.
Qed.

Lemma vec_after_size : forall no l l' x, vec_after no l l' x -> length l' <= vec_grow no + length l.
Proof using.
  clear Hu Hb Hbu. intros [n o] l l' x H. unfold vec_after in H. destruct x as [y|].
  - destruct H as [H _]. destruct o as [o|xs]; cbn [vec_xspec] in H.
    + pose proof (vec_spec_size o l) as X. rewrite <- H in X. exact X.
    + injection H as -> _. unfold vec_grow. cbn [snd]. lia.
  - unfold vec_grow. cbn [snd].
    destruct o as [[]|]; try contradiction H.
    + destruct H as (_ & ->). rewrite app_length, firstn_length. lia.
    + destruct H as (_ & _ & ->). lia.
    + destruct H as (_ & ->). lia.
Qed.

Theorem xv_step_ok : forall no v l G, vec_fits no l -> hvrep v l G ->
  safe (vec_xcost no (length l)) (xv_step ubits dbg no v) G
    (fun r G' => exists l', vec_after no l l' (snd r) /\ hvrep (fst r) l' G').
Proof using Hu Hb Hbu.
  intros [n o] v l G [L Bc] R. cbn [snd] in *.
  assert (Plain : forall o, match o with VGetMut _ _ | VExtend _ => False | _ => True end ->
    (N.of_nat (length (fst (vec_spec o l))) <= limit)%N ->
    safe (vec_xcost (n, Call o) (length l)) (let* (v, x) := hv_step ubits dbg o v in Ret (v, Some x)) G
      (fun r G' => exists l', vec_after (n, Call o) l l' (snd r) /\ hvrep (fst r) l' G')).
  { intros o' Ho L'. replace (vec_xcost (n, Call o') (length l)) with (vec_cost bits o' l) by (now destruct o').
    rewrite <- (Nat.add_0_r (vec_cost bits o' l)).
    eapply (safe_seq _ _ _ _ 0 _ _ G []); [apply (hv_step_ok ubits dbg bits Hu Hb Hbu o' v l G R L')|perm| |lia].
    intros [v' x] G' (E & R'). cbn [fst snd] in *. rewrite app_nil_r. apply safe_ret. cbn [fst snd].
    exists (fst (vec_spec o' l)). split; [|exact R']. cbn [vec_after vec_xspec].
    split; [rewrite E; now destruct (vec_spec o' l)|now destruct o']. }
  destruct o as [o|xs].
  - destruct o as [x|x|l0| | |i x|i x|i f|i| | | | |ds]; cbn [xv_step]; try (apply Plain; [exact I|exact L]).
    + cbn [vec_xspec vec_spec fst] in L. rewrite app_length in L.
      eapply (safe_seq _ _ _ (length l0 * (levels bits (len l + len l0) + 2)) 0 _ _ G []);
        [apply (xv_extend_ok l0 n v l G R); unfold len; lia|perm| |unfold vec_xcost; cbn [snd]; unfold len; lia].
      intros [left v'|v'] G' (Hn & R'); apply safe_ret; rewrite app_nil_r; cbn [fst snd].
      * exists (l ++ l0). split; [|exact R']. cbn. auto.
      * exists (l ++ firstn n l0). split; [|exact R']. cbn. auto.
    + eapply (safe_seq _ _ _ (levels bits (len l) + 1) 0 _ _ G []);
        [apply (xv_get_mut_ok n v l G i f R)|perm| |unfold vec_xcost; cbn [snd]; unfold len; lia].
      intros [left [v' b]|v'] G' H; apply safe_ret; rewrite app_nil_r; cbn [fst snd].
      * destruct H as (-> & R'). exists (map_at_N f i l). split; [|exact R']. cbn. auto.
      * destruct H as (-> & Hi & R'). exists l. split; [|exact R']. cbn. unfold in_range in Hi.
        apply N.ltb_lt in Hi. auto.
  - cbn [vec_xspec fst] in L. cbn [xv_step]. unfold xv_from_iter, vec_xcost. cbn [snd].
    unfold DEFAULT_BITS. rewrite <- Bc. set (k := length xs * (levels bits (len xs) + 2)).
    eapply (safe_seq _ _ _ (1 + k) 0 _ _ [] G
      (fun r G' => match r with
                   | Unwound _ => n <= length xs /\ G' = []
                   | Done _ v' => length xs < n /\ hvrep v' xs G'
                   end)); [|perm| |lia].
    + eapply (safe_seq _ _ _ 1 k _ _ [] []); [apply (hv_new_ok ubits dbg bits Hu Hb Hbu)|perm| |lia].
      intros w G' Rw. rewrite app_nil_r.
      eapply (safe_seq _ _ _ k 0 _ _ G' []); [apply (xv_extend_ok xs n w [] G' Rw); unfold len; cbn [length]; lia|perm| |].
      2:{ lia. }
      intros [left w'|w'] G2 (Hn & R2); rewrite app_nil_r.
      * apply safe_ret. auto.
      * eapply (safe_seq _ _ _ 0 0 _ _ G2 []); [apply (hv_drop_ok ubits dbg bits Hu Hb Hbu w' _ G2 R2)|perm| |lia].
        intros [] G3 ->. apply safe_ret. auto.
    + intros [left w|[]] G' H; destruct H as (Hn & H).
      * eapply (safe_seq _ _ _ 0 0 _ _ G G'); [apply (hv_drop_ok ubits dbg bits Hu Hb Hbu v l G R)|perm| |lia].
        intros [] G3 ->. apply safe_ret. exists xs. cbn [fst snd app]. split; [cbn; auto|exact H].
      * subst G'. apply safe_ret. exists l. cbn [fst snd app]. split; [cbn; auto|exact R].
Qed.
End VP.

(** ** List, Stack and Queue *)
Section LP.
Context {T : Type}.
Notation C := (lcell T).
Notation own := (@own C).
Notation safe := (safe (@lkids T)).

(** [spec] is the specification of the calls, [src] the iterator of [from_iter]. *)
Definition seq_after {Op} (spec : Op -> list T -> list T * obs T) (src : Op -> option (list T))
  (no : nat * Op) (l l' : list T) (x : option (obs T)) : Prop :=
  let (n, o) := no in
  match x with
  | Some y => (l', y) = spec o l /\ match src o with Some xs => length xs < n | None => True end
  | None => l' = l /\ match src o with Some xs => n <= length xs | None => False end
  end.

Definition list_src (o : list_op T) : option (list T) := match o with LFromIter xs => Some xs | _ => None end.
Definition queue_src (o : queue_op T) : option (list T) := match o with QFromIter xs => Some xs | _ => None end.
Definition stack_src (o : with_collect (stack_op T) T) : option (list T) := match o with Collect xs => Some xs | _ => None end.
Definition stack_xspec (o : with_collect (stack_op T) T) (l : list T) : list T * obs T :=
  match o with Call o => stack_spec o l | Collect xs => (xs, OUnit) end.

Definition list_xcost (no : nat * list_op T) (s : nat) : nat :=
  match snd no with
  | LPush _ | LPushMut _ => 2
  | LFromIter xs => 2 * length xs
  | LRev | LRevMut => s
  | _ => 0
  end.
Definition list_grow (no : nat * list_op T) : nat :=
  match snd no with
  | LPush _ | LPushMut _ => 1
  | LFromIter xs => length xs
  | _ => 0
  end.
Definition queue_xcost (no : nat * queue_op T) (s : nat) : nat :=
  match snd no with
  | QEnq _ | QEnqMut _ => 2
  | QFromIter xs => 2 * length xs
  | QDeq | QDeqMut => s
  | _ => 0
  end.
Definition queue_grow (no : nat * queue_op T) : nat :=
  match snd no with
  | QEnq _ | QEnqMut _ => 1
  | QFromIter xs => length xs
  | _ => 0
  end.
Definition stack_xcost (no : nat * with_collect (stack_op T) T) (s : nat) : nat :=
  match snd no with
  | Call (SPush _) | Call (SPushMut _) => 2
  | Collect xs => 2 * length xs
  | _ => 0
  end.
Definition stack_grow (no : nat * with_collect (stack_op T) T) : nat :=
  match snd no with
  | Call (SPush _) | Call (SPushMut _) => 1
  | Collect xs => length xs
  | _ => 0
  end.

Lemma list_xcost_mono : forall no n m, n <= m -> list_xcost no n <= list_xcost no m.
Proof. intros [n []] s m H; unfold list_xcost; cbn [snd]; lia. Qed.
Lemma queue_xcost_mono : forall no n m, n <= m -> queue_xcost no n <= queue_xcost no m.
Proof. intros [n []] s m H; unfold queue_xcost; cbn [snd]; lia. Qed.
Lemma stack_xcost_mono : forall no n m, n <= m -> stack_xcost no n <= stack_xcost no m.
Proof. intros [n [[]|]] s m H; unfold stack_xcost; cbn [snd]; lia. Qed.

Lemma tl_size : forall l : list T, length (tl l) <= length l.
Proof. destruct l; cbn [tl length]; lia. Qed.

Lemma list_after_size : forall no l l' x, seq_after list_spec list_src no l l' x -> length l' <= list_grow no + length l.
Proof.
  intros [n o] l l' x H. unfold seq_after in H. destruct x as [y|]; destruct H as [H _]; [|subst; lia].
  pose proof (tl_size l). unfold list_grow. cbn [snd].
  destruct o; cbn [list_spec] in H; injection H as -> _; rewrite ?rev_length; cbn [length]; lia.
Qed.
Lemma queue_after_size : forall no l l' x, seq_after queue_spec queue_src no l l' x -> length l' <= queue_grow no + length l.
Proof.
  intros [n o] l l' x H. unfold seq_after in H. destruct x as [y|]; destruct H as [H _]; [|subst; lia].
  pose proof (tl_size l). unfold queue_grow. cbn [snd].
  destruct o; cbn [queue_spec] in H; injection H as -> _; rewrite ?app_length; cbn [length]; lia.
Qed.
Lemma stack_after_size : forall no l l' x, seq_after stack_xspec stack_src no l l' x -> length l' <= stack_grow no + length l.
Proof.
  intros [n o] l l' x H. unfold seq_after in H. destruct x as [y|]; destruct H as [H _]; [|subst; lia].
  pose proof (tl_size l). unfold stack_grow. cbn [snd].
  destruct o as [[]|]; cbn [stack_xspec stack_spec] in H; injection H as -> _; cbn [length]; lia.
Qed.

Lemma xl_from_iter_ok : forall n (xs : list T),
  safe (2 * length xs) (xl_from_iter n xs) []
    (fun r G => match r with
                | None => n <= length xs /\ G = []
                | Some l => length xs < n /\ hlrep l xs G
                end).
Proof.
  intros n xs. unfold xl_from_iter. destruct (Nat.leb_spec n (length xs)) as [H|H]; [apply safe_ret; auto|].
  eapply (safe_seq _ _ _ (2 * length xs) 0 _ _ [] []); [apply hlp_from_iter_ok|perm| |lia].
  intros l G R. rewrite app_nil_r. apply safe_ret. auto.
Qed.

Theorem xl_step_ok : forall no l s G, hlrep l s G ->
  safe (list_xcost no (length s)) (xl_step no l) G
    (fun r G' => exists s', seq_after list_spec list_src no s s' (snd r) /\ hlrep (fst r) s' G').
Proof.
  intros [n o] l s G R.
  assert (Plain : list_src o = None ->
    safe (list_xcost (n, o) (length s)) (let* (l, x) := hl_step o l in Ret (l, Some x)) G
      (fun r G' => exists s', seq_after list_spec list_src (n, o) s s' (snd r) /\ hlrep (fst r) s' G')).
  { intros Ho. replace (list_xcost (n, o) (length s)) with (list_cost o s) by (now destruct o).
    eapply (safe_seq _ _ _ (list_cost o s) 0 _ _ G []); [apply (hl_step_ok o l s G R)|perm| |lia].
    intros [l' x] G' (E & R'). cbn [fst snd] in *. rewrite app_nil_r. apply safe_ret. cbn [fst snd].
    exists (fst (list_spec o s)). split; [|exact R']. cbn [seq_after].
    rewrite Ho, E. split; [now destruct (list_spec o s)|trivial]. }
  destruct o as [|xs| | | | | | | | | | |]; try (exact (Plain eq_refl)).
  unfold xl_step, list_xcost. cbn [fst snd].
  eapply (safe_seq _ _ _ (2 * length xs) 0 _ _ [] G); [apply xl_from_iter_ok|perm| |lia].
  intros [l'|] G' (Hn & H).
  - eapply (safe_seq _ _ _ 0 0 _ _ G G'); [apply (hlp_drop_ok _ _ _ R)|perm| |lia].
    intros [] G3 ->. apply safe_ret. exists xs. cbn [fst snd app]. split; [cbn; auto|exact H].
  - subst G'. apply safe_ret. exists s. cbn [fst snd app]. split; [cbn; auto|exact R].
Qed.

Theorem xq_step_ok : forall no q s G, hqrep q s G ->
  safe (queue_xcost no (length s)) (xq_step no q) G
    (fun r G' => exists s', seq_after queue_spec queue_src no s s' (snd r) /\ hqrep (fst r) s' G').
Proof.
  intros [n o] q s G R.
  assert (Plain : queue_src o = None ->
    safe (queue_xcost (n, o) (length s)) (let* (q, x) := hq_step o q in Ret (q, Some x)) G
      (fun r G' => exists s', seq_after queue_spec queue_src (n, o) s s' (snd r) /\ hqrep (fst r) s' G')).
  { intros Ho. replace (queue_xcost (n, o) (length s)) with (queue_cost o s) by (now destruct o).
    eapply (safe_seq _ _ _ (queue_cost o s) 0 _ _ G []); [apply (hq_step_ok o q s G R)|perm| |lia].
    intros [q' x] G' (E & R'). cbn [fst snd] in *. rewrite app_nil_r. apply safe_ret. cbn [fst snd].
    exists (fst (queue_spec o s)). split; [|exact R']. cbn [seq_after].
    rewrite Ho, E. split; [now destruct (queue_spec o s)|trivial]. }
  destruct o as [|xs| | | | | | | |]; try (exact (Plain eq_refl)).
  unfold xq_step, queue_xcost. cbn [fst snd].
  eapply (safe_seq _ _ _ (2 * length xs) 0 _ _ [] G); [apply xl_from_iter_ok|perm| |lia].
  intros [l'|] G' (Hn & H).
  - eapply (safe_seq _ _ _ 0 0 _ _ G G'); [apply (hq_drop_ok _ _ _ R)|perm| |lia].
    intros [] G3 ->. apply safe_ret. exists xs. cbn [fst snd app]. split; [cbn; auto|].
    exists [], xs, [], G'. splits; trivial; [apply hlrep_new|]. now rewrite app_nil_r.
  - subst G'. apply safe_ret. exists s. cbn [fst snd app]. split; [cbn; auto|exact R].
Qed.

Theorem xs_step_ok : forall no l s G, hlrep l s G ->
  safe (stack_xcost no (length s)) (xs_step no l) G
    (fun r G' => exists s', seq_after stack_xspec stack_src no s s' (snd r) /\ hlrep (fst r) s' G').
Proof.
  intros [n [o|xs]] l s G R; cbn [xs_step].
  - replace (stack_xcost (n, Call o) (length s)) with (stack_cost o s) by (now destruct o).
    eapply (safe_seq _ _ _ (stack_cost o s) 0 _ _ G []); [apply (hs_step_ok o l s G R)|perm| |lia].
    intros [l' x] G' (E & R'). cbn [fst snd] in *. rewrite app_nil_r. apply safe_ret. cbn [fst snd].
    exists (fst (stack_spec o s)). split; [|exact R']. cbn. split; [rewrite E; now destruct (stack_spec o s)|trivial].
  - unfold stack_xcost. cbn [snd].
    eapply (safe_seq _ _ _ (2 * length xs) 0 _ _ [] G); [apply xl_from_iter_ok|perm| |lia].
    intros [l'|] G' (Hn & H).
    + eapply (safe_seq _ _ _ 0 0 _ _ G G'); [apply (hlp_drop_ok _ _ _ R)|perm| |lia].
      intros [] G3 ->. apply safe_ret. exists xs. cbn [fst snd app]. split; [cbn; auto|exact H].
    + subst G'. apply safe_ret. exists s. cbn [fst snd app]. split; [cbn; auto|exact R].
Qed.
End LP.
