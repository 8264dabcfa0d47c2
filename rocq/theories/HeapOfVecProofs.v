(** * Vectors of collections: the proofs *)
From Coq Require Import List NArith ZArith Arith Lia Bool Permutation.
From Verif Require Import Base Spec VectorModel VectorProofs VectorOps PermSolve HeapModel HeapProofs HeapSafe HeapShare HeapDrive HeapVec HeapVecProofs
  HeapIn HeapInProofs HeapHost HeapHostProofs HeapOfVec.
Import ListNotations.
Local Open Scope prog_scope.

Definition v_map {X Y} (f : X -> Y) (c : vcell X) : vcell Y :=
  match c with VB a => VB a | VL a => VL a | VE x => VE (f x) end.

Section Tr.
Variable ubits : N.
Variable dbg : bool.
Context {E V : Type}.
Notation X := (E * V)%type.
Notation erase := (v_map (@fst E V)).
Notation traces := (traces erase (@v_elem X)).
Notation same := (@same E V).
Notation tr_drop := (tr_drop vkids erase (@v_elem X) vkids).

Lemma kids_erase : forall b : vcell X, vkids (erase b) = vkids b.
Proof using. now intros []. Qed.
Lemma elem_erase : forall b : vcell X, v_elem (erase b) = option_map fst (v_elem b).
Proof using. now intros []. Qed.

Lemma height_erase : forall v, hv_height (T := X) ubits dbg v = hv_height (T := E) ubits dbg v.
Proof using. reflexivity. Qed.
Lemma full_erase : forall v, v_is_root_full ubits dbg (hv_shape (T := X) v) = v_is_root_full ubits dbg (hv_shape (T := E) v).
Proof using. reflexivity. Qed.
Lemma cap_erase : forall v, v_root_max_capacity ubits dbg (hv_shape (T := X) v) = v_root_max_capacity ubits dbg (hv_shape (T := E) v).
Proof using. reflexivity. Qed.

Lemma v_make_mut : forall {A A'} (R : A' -> A -> list X -> Prop) fl a f' f,
  (forall a' b, v_elem b = None -> traces R fl (f' (a', b)) (f (a', erase b))) ->
  (forall a' x, f' (a', VE x) = Fail) ->
  traces R fl (pbind (make_mut vkids a) f') (pbind (make_mut vkids a) f).
Proof using.
  intros A A' R fl a f' f K Kf. apply tr_make_mut; trivial; [apply kids_erase|].
  intros a' [| |x] H; easy.
Qed.

Definition val (fl0 : list X) (x' : X) (x : E) (fl : list X) : Prop := x = fst x' /\ fl = fl0.
Definition vals (fl0 : list X) (x' : option X) (x : option E) (fl : list X) : Prop := x = option_map fst x' /\ fl = fl0.
Definition cells (fl0 : list X) (x' : vcell X) (x : vcell E) (fl : list X) : Prop :=
  v_elem x' = None /\ x = erase x' /\ fl = fl0.

Lemma tr_hvn_get : forall fl f bits c index h,
  traces (val fl) fl (hvn_get ubits dbg f bits c index h) (hvn_get ubits dbg f bits (erase c) index h).
Proof using.
  intros fl f. induction f as [|f IH]; intros bits c index h; cbn [hvn_get]; [apply tr_fail|].
  apply tr_lift. intros b. destruct c as [a|a|x]; cbn [v_map].
  - apply tr_lift. intros p. apply tr_lift. intros h'. apply tr_read. intros c. apply IH.
  - apply tr_lift. intros _. apply tr_lift. intros p. apply tr_read. intros [|c|x]; cbn; try apply tr_fail. now apply tr_ret.
  - apply tr_fail.
Qed.

Lemma assoc_elem : forall f bits index (x y : X) h, hvn_assoc ubits dbg f bits index (VE x) y h = Fail.
Proof using. intros [|f] bits index x y h; cbn [hvn_assoc]; [trivial|]. now destruct (bucket ubits dbg bits index h). Qed.

Lemma tr_hvn_assoc : forall y fl f bits index c h, v_elem c = None ->
  traces (cells fl) (y :: fl) (hvn_assoc ubits dbg f bits index c y h) (hvn_assoc ubits dbg f bits index (erase c) (fst y) h).
Proof using.
  intros y fl f. induction f as [|f IH]; intros bits index c h Hc; cbn [hvn_assoc]; [apply tr_fail|].
  apply tr_lift. intros b. destruct c as [a|a|x]; cbn [v_map]; [| |easy].
  - apply tr_lift. intros _. destruct (nth_error a (N.to_nat b)) as [p|].
    + apply v_make_mut.
      * intros p' c Hn. apply tr_lift. intros h'. eapply tr_bind; [now apply IH|].
        intros c1' c1 fl1 (H1 & -> & ->). apply tr_fill; trivial. now apply tr_ret.
      * intros p' x. destruct (usub ubits dbg h 1); cbn [lift pbind]; trivial. now rewrite assoc_elem.
    + apply tr_lift. intros h'. 
      replace (if (1 <? h)%N then VB [] else VL []) with (erase (if (1 <? h)%N then VB [] else VL [])) by now destruct (1 <? h)%N.
      eapply tr_bind; [apply IH; now destruct (1 <? h)%N|].
      intros c1' c1 fl1 (H1 & -> & ->). apply tr_new; trivial. intros q. now apply tr_ret.
  - apply tr_lift. intros _. destruct (N.of_nat (length a) =? b)%N.
    + apply (tr_put _ _ _ y); trivial. intros p. now apply tr_ret.
    + apply (tr_put _ _ _ y); trivial. intros p. apply tr_lift. intros old.
      eapply tr_same; [apply tr_drop, kids_erase|]. intros _. now apply tr_ret.
Qed.

Lemma hused_erase : forall c : vcell X, hused (erase c) = hused c.
Proof using. intros c. unfold hused. now rewrite kids_erase. Qed.

Definition cellb (fl0 : list X) (x' : vcell X * bool) (x : vcell E * bool) (fl : list X) : Prop :=
  v_elem (fst x') = None /\ x = (erase (fst x'), snd x') /\ fl = fl0.

Lemma tr_hvn_drop_last : forall fl f c, v_elem c = None ->
  traces (cellb fl) fl (hvn_drop_last f c) (hvn_drop_last f (erase c)).
Proof using.
  intros fl f. induction f as [|f IH]; intros c Hc; cbn [hvn_drop_last]; [apply tr_fail|].
  rewrite hused_erase. destruct (hused c =? 0); [destruct c; [now apply tr_ret|now apply tr_ret|apply tr_fail]|].
  eapply (tr_bind _ _ (cells fl)).
  - destruct c as [a|a|x]; cbn [v_map]; [| |easy].
    + apply tr_lift. intros p. apply v_make_mut.
      * intros p' d Hd. eapply tr_bind; [now apply IH|]. intros [d' e] x fl1 (H1 & -> & ->). cbn [fst snd] in *.
        apply tr_fill; trivial. destruct e.
        -- eapply tr_same; [apply tr_drop, kids_erase|]. intros _. now apply tr_ret.
        -- now apply tr_ret.
      * intros p' x. destruct f; reflexivity.
    + apply tr_lift. intros p. eapply tr_same; [apply tr_drop, kids_erase|]. intros _. now apply tr_ret.
  - intros c1' c1 fl1 (H1 & -> & ->). rewrite hused_erase. now apply tr_ret.
Qed.

(** The vector *)
Lemma tr_get : forall fl v i, traces (vals fl) fl (hv_get ubits dbg v i) (hv_get ubits dbg v i).
Proof using.
  intros fl v i. unfold hv_get. destruct (hv_length v <=? i)%N; [now apply tr_ret|].
  rewrite height_erase. apply tr_lift. intros h. apply tr_read. intros c. eapply tr_bind; [apply tr_hvn_get|].
  intros x' x fl1 (-> & ->). now apply tr_ret.
Qed.

Lemma tr_assoc : forall y fl v i, traces (same fl) (y :: fl) (hv_assoc ubits dbg v i y) (hv_assoc ubits dbg v i (fst y)).
Proof using.
  intros y fl v i. unfold hv_assoc. rewrite height_erase, cap_erase. apply tr_lift. intros _. apply tr_lift. intros h.
  apply v_make_mut.
  - intros r c Hc. eapply tr_bind; [now apply tr_hvn_assoc|]. intros c1' c1 fl1 (H1 & -> & ->). apply tr_fill; trivial.
    destruct (hv_length v <=? i)%N; [apply tr_lift; intros len|]; now apply tr_ret.
  - intros r x. now rewrite assoc_elem.
Qed.

Lemma tr_push : forall y fl v, traces (same fl) (y :: fl) (hv_push_back_mut ubits dbg v y) (hv_push_back_mut ubits dbg v (fst y)).
Proof using.
  intros y fl v. unfold hv_push_back_mut. rewrite full_erase. apply tr_lift. intros full. destruct full; [|apply tr_assoc].
  apply tr_clone. apply tr_new; trivial. intros r. eapply tr_same; [apply tr_drop, kids_erase|]. intros _.
  apply tr_lift. intros len. apply tr_assoc.
Qed.

Lemma tr_extend : forall ys v, traces (same []) ys (hv_extend ubits dbg v ys) (hv_extend ubits dbg v (map fst ys)).
Proof using.
  induction ys as [|y ys IH]; intros v; cbn [hv_extend map]; [now apply tr_ret|].
  eapply tr_bind; [apply tr_push|]. intros v' v1 fl1 (-> & ->). apply IH.
Qed.

Lemma tr_set_mut : forall y v i,
  traces (fun x' x _ => x' = x) [y] (hv_set_mut ubits dbg v i y) (hv_set_mut ubits dbg v i (fst y)).
Proof using.
  intros y v i. unfold hv_set_mut. destruct (hv_length v <=? i)%N; [now apply tr_ret|].
  eapply tr_bind; [apply tr_assoc|]. intros v' v1 fl1 (-> & ->). now apply tr_ret.
Qed.

Lemma tr_drop_last : forall fl v, traces (same fl) fl (hv_drop_last_mut (T := X) ubits dbg v) (hv_drop_last_mut (T := E) ubits dbg v).
Proof using.
  intros fl v. unfold hv_drop_last_mut. destruct (0 <? hv_length v)%N; [|now apply tr_ret].
  apply v_make_mut.
  - intros r c Hc. rewrite height_erase. apply tr_lift. intros h. eapply tr_bind; [now apply tr_hvn_drop_last|].
    intros [c1 b] x fl1 (H1 & -> & ->). cbn [fst snd] in *. apply tr_lift. intros len.
    destruct c1 as [[|p [|p2 l]]|l|x]; cbn [v_map]; try (apply tr_fill; trivial; now apply tr_ret).
    apply tr_fill; trivial. eapply tr_same; [apply tr_drop, kids_erase|]. intros _. now apply tr_ret.
  - intros r x. destruct (hv_height ubits dbg v); cbn [lift pbind]; trivial.
Qed.

Lemma tr_hv_clone : forall fl v, traces (same fl) fl (hv_clone (T := X) v) (hv_clone (T := E) v).
Proof using. intros fl v. apply tr_clone. now apply tr_ret. Qed.
Lemma tr_hv_drop : forall fl v, traces (same fl) fl (hv_drop (T := X) ubits dbg v) (hv_drop (T := E) ubits dbg v).
Proof using. intros fl v. unfold hv_drop. rewrite height_erase. apply tr_lift. intros h. apply tr_drop, kids_erase. Qed.

Lemma tr_persistently : forall {A} fl (op' : hvec -> prog (vcell X) (hvec * A)) op keep v,
  (forall n, traces (fun x' x _ => x' = x) fl (op' n) (op n)) ->
  traces (fun x' x _ => x' = x) fl (persistently ubits dbg op' keep v) (persistently ubits dbg op keep v).
Proof using.
  intros A fl op' op keep v K. unfold persistently. eapply tr_same; [apply tr_hv_clone|]. intros n.
  eapply tr_bind; [apply K|]. intros [n' x'] x fl1 <-. destruct (keep x').
  - eapply tr_same; [apply tr_hv_drop|]. intros _. now apply tr_ret.
  - eapply tr_same; [apply tr_hv_drop|]. intros _. now apply tr_ret.
Qed.

(** The iterators only read. *)
Lemma tr_hse_new : forall fl a bw, traces (same fl) fl (hse_new (T := X) a bw) (hse_new (T := E) a bw).
Proof using.
  intros fl a bw. unfold hse_new. destruct bw; [|now apply tr_ret]. apply tr_read. intros b. rewrite hused_erase. now apply tr_ret.
Qed.
Lemma tr_ret_lift : forall {A} fl (r : res A), traces (same fl) fl (lift r) (lift r).
Proof using. intros A fl [x| |]; cbn [lift]; [now apply tr_ret|apply tr_fail|apply tr_fail]. Qed.
Lemma tr_hdig : forall fl bw f st, traces (same fl) fl (hdig (T := X) f st bw) (hdig (T := E) f st bw).
Proof using.
  intros fl bw f. induction f as [|f IH]; intros st; cbn [hdig]; [apply tr_fail|].
  destruct st as [|e st]; [apply tr_fail|]. apply tr_read. intros b.
  assert (K : traces (same fl) fl
     (let* n := hse_current_node e in let* e' := hse_new n bw in hdig (T := X) f (e' :: e :: st) bw)
     (let* n := hse_current_node e in let* e' := hse_new n bw in hdig (T := E) f (e' :: e :: st) bw)).
  { apply tr_same.
    - apply tr_read. intros [l|l|x]; cbn; [apply tr_ret_lift|apply tr_fail|apply tr_fail].
    - intros n. apply tr_same; [apply tr_hse_new|]. intros e'. apply IH. }
  destruct b as [l|l|x]; cbn [v_map]; [exact K|now apply tr_ret|exact K].
Qed.
Lemma tr_hit_advance : forall fl bw f st, traces (same fl) fl (hit_advance (T := X) f st bw) (hit_advance (T := E) f st bw).
Proof using.
  intros fl bw f st. induction st as [|e st IH]; cbn [hit_advance]; [now apply tr_ret|].
  apply tr_same.
  - unfold hse_advance. destruct bw; [now apply tr_ret|]. apply tr_read. intros b. rewrite hused_erase. now apply tr_ret.
  - intros [e' fin]. destruct fin; [apply IH|apply tr_hdig].
Qed.
Lemma tr_hinit : forall fl v bw, traces (same fl) fl (hinit_stack (T := X) ubits dbg v bw) (hinit_stack (T := E) ubits dbg v bw).
Proof using.
  intros fl v bw. unfold hinit_stack. rewrite height_erase. apply tr_lift. intros h. apply tr_lift. intros _.
  apply tr_same; [apply tr_hse_new|]. intros e. apply tr_hdig.
Qed.
Lemma tr_init : forall fl it bw,
  traces (same fl) fl (hvi_init_if_needed (T := X) ubits dbg it bw) (hvi_init_if_needed (T := E) ubits dbg it bw).
Proof using.
  intros fl it bw. unfold hvi_init_if_needed.
  destruct bw; [destruct (hvi_bwd it)|destruct (hvi_fwd it)]; try now apply tr_ret.
  all: apply tr_same; [apply tr_hinit|]; intros s; now apply tr_ret.
Qed.
Lemma tr_hit_current : forall fl st, traces (vals fl) fl (hit_current (T := X) st) (hit_current (T := E) st).
Proof using.
  intros fl [|e st]; cbn [hit_current]; [now apply tr_ret|]. apply tr_same.
  - apply tr_read. intros [l|l|x]; cbn; [apply tr_fail|apply tr_ret_lift|apply tr_fail].
  - intros p. apply tr_read. intros [l|l|x]; cbn; [apply tr_fail|apply tr_fail|now apply tr_ret].
Qed.

Definition nexts (fl0 : list X) (x' : option X * hviter) (x : option E * hviter) (fl : list X) : Prop :=
  x = (option_map fst (fst x'), snd x') /\ fl = fl0.

Lemma tr_next : forall fl it, traces (nexts fl) fl (hvi_next (T := X) ubits dbg it) (hvi_next (T := E) ubits dbg it).
Proof using.
  intros fl it. unfold hvi_next. apply tr_same; [apply tr_init|]. clear it. intros it.
  eapply (tr_bind _ _ (vals fl)).
  - unfold hvi_current_forward. destruct (hvi_non_empty it); [|now apply tr_ret]. apply tr_lift. intros s. apply tr_hit_current.
  - intros x' x fl1 (-> & ->). apply tr_same; [|intros it'; now apply tr_ret].
    unfold hvi_advance_forward. destruct (hvi_non_empty it); [|now apply tr_ret]. apply tr_lift. intros s.
    apply tr_same; [apply tr_hit_advance|]. intros s'. apply tr_lift. intros l. now apply tr_ret.
Qed.
Lemma tr_next_back : forall fl it, traces (nexts fl) fl (hvi_next_back (T := X) ubits dbg it) (hvi_next_back (T := E) ubits dbg it).
Proof using.
  intros fl it. unfold hvi_next_back. apply tr_same; [apply tr_init|]. clear it. intros it.
  eapply (tr_bind _ _ (vals fl)).
  - unfold hvi_current_backward. destruct (hvi_non_empty it); [|now apply tr_ret]. apply tr_lift. intros s. apply tr_hit_current.
  - intros x' x fl1 (-> & ->). apply tr_same; [|intros it'; now apply tr_ret].
    unfold hvi_advance_backward. destruct (hvi_non_empty it); [|now apply tr_ret]. apply tr_lift. intros s.
    apply tr_same; [apply tr_hit_advance|]. intros s'. apply tr_lift. intros l. now apply tr_ret.
Qed.

Definition steps (fl0 : list X) (x' : list (nat * option X)) (x : list (nat * option E)) (fl : list X) : Prop :=
  x = map (fun r => (fst r, option_map fst (snd r))) x' /\ fl = fl0.

Lemma tr_iter : forall fl ds v, traces (steps fl) fl (hv_iter (T := X) ubits dbg v ds) (hv_iter (T := E) ubits dbg v ds).
Proof using.
  intros fl ds v. unfold hv_iter. generalize (hvi_new v) as it.
  induction ds as [|d ds IH]; intros it; cbn [pruns2]; [now apply tr_ret|]. apply tr_lift. intros h.
  eapply (tr_bind _ _ (nexts fl)); [destruct d; [apply tr_next_back|apply tr_next]|].
  intros [o it'] x fl1 (-> & ->). cbn [fst snd]. eapply tr_bind; [apply IH|].
  intros r' r fl1 (-> & ->). now apply tr_ret.
Qed.

(** All calls but [get_mut] *)
Definition obs_map {Y Z} (f : Y -> Z) (o : obs Y) : obs Z :=
  match o with
  | OUnit => OUnit
  | OBool b => OBool b
  | ONat n => ONat n
  | OElem o => OElem (option_map f o)
  | OSteps l => OSteps (map (fun r => (fst r, option_map f (snd r))) l)
  end.
Definition op_args {Y} (o : vec_op Y) : list Y :=
  match o with VPush x | VPushMut x | VSet _ x | VSetMut _ x => [x] | VExtend xs => xs | _ => [] end.
Definition op_map {Y Z} (f : Y -> Z) (o : vec_op Y) : vec_op Z :=
  match o with
  | VPush x => VPush (f x)
  | VPushMut x => VPushMut (f x)
  | VExtend xs => VExtend (map f xs)
  | VDrop => VDrop
  | VDropMut => VDropMut
  | VSet i x => VSet i (f x)
  | VSetMut i x => VSetMut i (f x)
  | VGetMut _ _ => VLen
  | VGet i => VGet i
  | VFirst => VFirst
  | VLast => VLast
  | VLen => VLen
  | VIsEmpty => VIsEmpty
  | VIter ds => VIter ds
  end.
Definition no_mut {Y} (o : vec_op Y) : Prop := match o with VGetMut _ _ => False | _ => True end.

Definition result (x' : hvec * obs X) (x : hvec * obs E) : Prop := x = (fst x', obs_map fst (snd x')).

Lemma tr_step : forall o v, no_mut o ->
  traces (fun x' x _ => result x' x) (op_args o) (hv_step ubits dbg o v) (hv_step ubits dbg (op_map fst o) v).
Proof using.
  intros o v Ho. destruct o as [x|x|xs| | |i x|i x|i g|i| | | | |ds]; cbn [hv_step op_args op_map]; try now apply tr_ret; try easy.
  - eapply tr_bind; [apply tr_persistently|].
    + intros n. eapply tr_bind; [apply tr_push|]. intros n1' n1 fl1 (-> & ->). apply tr_ret. reflexivity.
    + intros [v1 []] x0 fl1 <-. now apply tr_ret.
  - eapply tr_bind; [apply tr_push|]. intros n1' n1 fl1 (-> & ->). now apply tr_ret.
  - eapply tr_bind; [apply tr_extend|]. intros n1' n1 fl1 (-> & ->). now apply tr_ret.
  - eapply tr_bind; [apply tr_persistently|].
    + intros n. eapply tr_mono; [apply tr_drop_last|]. intros x' x fl1 (-> & _). reflexivity.
    + intros [v1 b] x0 fl1 <-. now apply tr_ret.
  - eapply tr_same; [apply tr_drop_last|]. intros [v1 b]. now apply tr_ret.
  - eapply tr_bind; [apply tr_persistently; intros n; apply tr_set_mut|]. intros [v1 b] x0 fl1 <-. now apply tr_ret.
  - eapply tr_bind; [apply tr_set_mut|]. intros [v1 b] x0 fl1 <-. now apply tr_ret.
  - destruct Ho.
  - eapply tr_bind; [apply tr_get|]. intros x' x fl1 (-> & ->). now apply tr_ret.
  - eapply tr_bind; [apply tr_get|]. intros x' x fl1 (-> & ->). now apply tr_ret.
  - eapply (tr_bind _ _ (vals [])).
    + unfold hv_last. destruct (hv_length v =? 0)%N; [now apply tr_ret|apply tr_get].
    + intros x' x fl1 (-> & ->). now apply tr_ret.
  - eapply tr_bind; [apply tr_iter|]. intros x' x fl1 (-> & ->). now apply tr_ret.
Qed.
End Tr.

(** ** Sequences of elements and of their values *)
Lemma len_map : forall {Y Z} (f : Y -> Z) l, len (map f l) = len l.
Proof. intros. unfold len. now rewrite map_length. Qed.
Lemma in_range_map : forall {Y Z} (f : Y -> Z) i l, in_range i (map f l) = in_range i l.
Proof. intros. unfold in_range. now rewrite map_length. Qed.
Lemma at_N_map : forall {Y Z} (f : Y -> Z) l i, at_N (map f l) i = option_map f (at_N l i).
Proof. intros. unfold at_N. rewrite in_range_map. destruct (in_range i l); [apply nth_error_map|trivial]. Qed.
Lemma map_at_map : forall {Y Z} (f : Y -> Z) g h i l, (forall y, f (g y) = h (f y)) ->
  map_at h i (map f l) = map f (map_at g i l).
Proof. intros Y Z f g h i l K. revert i. induction l as [|y l IH]; intros [|i]; cbn; trivial; [now rewrite K|now rewrite IH]. Qed.
Lemma map_at_N_map : forall {Y Z} (f : Y -> Z) g h i l, (forall y, f (g y) = h (f y)) ->
  map_at_N h i (map f l) = map f (map_at_N g i l).
Proof.
  intros. unfold map_at_N. rewrite in_range_map. destruct (in_range i l); [now apply map_at_map|trivial].
Qed.
Lemma hd_error_map : forall {Y Z} (f : Y -> Z) l, hd_error (map f l) = option_map f (hd_error l).
Proof. now intros Y Z f []. Qed.
Lemma last_error_map : forall {Y Z} (f : Y -> Z) l, last_error (map f l) = option_map f (last_error l).
Proof.
  intros Y Z f l. destruct (snoc_cases l) as [->|(l' & x & ->)]; [trivial|]. rewrite map_app. cbn [map].
  now rewrite !last_snoc.
Qed.
Lemma is_nil_map : forall {Y Z} (f : Y -> Z) l, is_nil (map f l) = is_nil l.
Proof. now intros Y Z f []. Qed.
Lemma de_spec_map : forall {Y Z} (f : Y -> Z) ds l,
  de_spec ds (map f l) = map (fun r => (fst r, option_map f (snd r))) (de_spec ds l).
Proof.
  intros Y Z f ds. induction ds as [|d ds IH]; intros l; [trivial|]. destruct d; cbn [de_spec map fst snd];
    rewrite map_length; [rewrite last_error_map, removelast_map|rewrite hd_error_map]; f_equal.
  - apply IH.
  - rewrite <- IH. now destruct l.
Qed.
Lemma hd_error_in : forall {Y} (l : list Y) y, hd_error l = Some y -> In y l.
Proof. intros Y [|x l] y H; [easy|]. injection H as <-. now left. Qed.
Lemma last_error_in : forall {Y} (l : list Y) y, last_error l = Some y -> In y l.
Proof.
  intros Y l y H. destruct (snoc_cases l) as [->|(l' & x & ->)]; [easy|]. rewrite last_snoc in H. injection H as <-.
  apply in_app_iff. right. now left.
Qed.
Lemma removelast_in : forall {Y} (l : list Y) y, In y (removelast l) -> In y l.
Proof.
  intros Y l y H. destruct (snoc_cases l) as [->|(l' & x & ->)]; [easy|]. rewrite removelast_last in H.
  apply in_app_iff. now left.
Qed.
Lemma de_spec_in : forall {Y} ds (l : list Y) n y, In (n, Some y) (de_spec ds l) -> In y l.
Proof.
  intros Y ds. induction ds as [|d ds IH]; intros l n y H; [easy|]. destruct d; cbn [de_spec In] in H; destruct H as [H|H].
  - injection H as _ H. now apply last_error_in.
  - apply removelast_in. eapply IH, H.
  - injection H as _ H. now apply hd_error_in.
  - apply IH in H. destruct l; [easy|]. now right.
Qed.
Lemma at_N_in : forall {Y} (l : list Y) i y, at_N l i = Some y -> In y l.
Proof. intros Y l i y H. unfold at_N in H. destruct (in_range i l); [|easy]. eapply nth_error_In, H. Qed.
Lemma in_at_N : forall {Y} (l : list Y) y, In y l -> exists i, at_N l i = Some y.
Proof.
  intros Y l y H. apply In_nth_error in H as (i & H). exists (N.of_nat i). unfold at_N, in_range.
  rewrite Nat2N.id. assert (i < length l) by (apply nth_error_Some; congruence).
  destruct (N.ltb_spec (N.of_nat i) (N.of_nat (length l))); [trivial|lia].
Qed.

Lemma spec_map : forall {Y Z} (f : Y -> Z) o l, no_mut o ->
  vec_spec (op_map f o) (map f l) = (map f (fst (vec_spec o l)), obs_map f (snd (vec_spec o l))).
Proof.
  intros Y Z f o l Ho. destruct o; cbn [op_map vec_spec fst snd obs_map]; try easy.
  - now rewrite map_app.
  - now rewrite map_app.
  - now rewrite map_app.
  - now rewrite removelast_map, is_nil_map.
  - now rewrite removelast_map, is_nil_map.
  - rewrite in_range_map. f_equal. now apply map_at_N_map.
  - rewrite in_range_map. f_equal. now apply map_at_N_map.
  - now rewrite at_N_map.
  - now rewrite hd_error_map.
  - now rewrite last_error_map.
  - now rewrite map_length.
  - now rewrite is_nil_map.
  - now rewrite de_spec_map.
Qed.

Lemma cost_map : forall {Y Z} (f : Y -> Z) bits o l, no_mut o -> vec_cost bits (op_map f o) (map f l) = vec_cost bits o l.
Proof. intros Y Z f bits o l Ho. destruct o; cbn [op_map vec_cost]; rewrite ?len_map, ?map_length; easy. Qed.

Lemma map_at_N_len : forall {Y} (f : Y -> Y) i l, len (map_at_N f i l) = len l.
Proof. intros. unfold map_at_N. destruct (in_range i l); trivial. unfold len. now rewrite map_at_length. Qed.

Lemma map_at_N_at : forall {Y Z} (f : Y -> Z) g h i l y, at_N l i = Some y -> f (g y) = h (f y) ->
  map_at_N h i (map f l) = map f (map_at_N g i l).
Proof.
  intros Y Z f g h i l y Ha K. unfold at_N in Ha. unfold map_at_N. rewrite in_range_map.
  destruct (in_range i l); [|easy]. revert Ha. generalize (N.to_nat i) as n. induction l as [|z l IH]; intros [|n] Ha; try easy; cbn in *.
  - injection Ha as ->. now rewrite K.
  - now rewrite IH.
Qed.

Lemma map_at_N_none : forall {Y} (f : Y -> Y) i l, at_N l i = None -> map_at_N f i l = l.
Proof.
  intros Y f i l H. unfold at_N, map_at_N in *. destruct (in_range i l) eqn:Ei; [|trivial]. exfalso.
  unfold in_range in Ei. apply N.ltb_lt in Ei. apply nth_error_None in H. lia.
Qed.

(** ** The nested vector *)
Section VecOf.
Variable ubits : N.
Variable dbg : bool.
Variable bits : N.
Hypothesis Hu : (8 <= ubits)%N.
Hypothesis Hb : (0 < bits)%N.
Hypothesis Hbu : (bits < ubits)%N.
Context {C E V Op Out : Type} (I : impl C E Op Out) (S : spec V Op Out).
Context (rep : E -> V -> list (@own C) -> Prop) (ncost : nat) (cost : Op -> V -> nat).
Hypothesis by_I : implements_by I S rep ncost cost.
Notation X := (E * V)%type.
Notation B := (vcell E).
Notation B' := (vcell X).
Notation D := (dcell B C).
Notation erase := (v_map (@fst E V)).
Notation kids := (dkids I (@v_elem E) vkids).
Notation safe := (safe kids).
Notation exts := (Forall2 (exto rep erase (@v_elem X))).
Notation loose := (loose (B := B) rep).
Notation msafe := (msafe I rep (@v_elem E) vkids erase (@v_elem X)).
Notation hvrep := (hvrep ubits dbg bits).
Notation limit := (vec_limit ubits dbg bits).
Notation vrun := (vrun S).
Notation irun_cost := (irun_cost S cost).

Lemma elem_bkids : forall (b : B) e, v_elem b = Some e -> vkids b = [].
Proof using. now intros []. Qed.
Lemma elem_kids : forall (b : B') y, v_elem b = Some y -> vkids b = [].
Proof using. now intros []. Qed.

Notation mcalls := (mcalls I S rep ncost cost by_I (@v_elem E) vkids erase (@v_elem X) vkids elem_erase kids_erase elem_kids).
Notation calls_ok := (calls_ok I S rep ncost cost by_I (@v_elem E) vkids erase (@v_elem X) vkids elem_erase kids_erase elem_kids).
Notation mseq := (mseq I rep (@v_elem E) vkids erase (@v_elem X)).
Notation mfill := (mfill I rep (@v_elem E) vkids erase (@v_elem X) vkids elem_erase kids_erase).

(** *** Calls of the plain vector *)
Lemma step_ok : forall o v l G0 G W, no_mut o -> hvrep v l G0 -> exts G0 G -> loose (op_args o) W ->
  (len (fst (vec_spec o l)) <= limit)%N ->
  safe (vec_cost bits o l) (calls I v_elem (hv_step ubits dbg (op_map fst o) v) (map fst (op_args o))) (G ++ W)
    (fun r G' => exists G1, snd r = obs_map fst (snd (vec_spec o l)) /\ hvrep (fst r) (fst (vec_spec o l)) G1 /\ exts G1 G').
Proof.
  intros o v l G0 G W Ho R Ex Lo L.
  eapply safe_mono; [apply le_n| |exact (calls_ok _ _ _ _ _ _ _ _ _ (tr_step ubits dbg o v Ho)
    (hv_step_ok ubits dbg bits Hu Hb Hbu o v l G0 R L) Ex Lo)].
  cbn beta. intros r G' (r' & G1 & -> & (E1 & R1) & Ex1). exists G1. cbn [fst snd]. now rewrite E1.
Qed.

(** *** [get_mut] *)
Lemma node_mut_ok : forall a c ts, v_elem c = None ->
  msafe 1 (node_mut I v_elem (make_mut vkids) a) [Tree (PT a c ts)]
    (fun r G => exists a', r = (a', erase c) /\ G = Held a' :: map Tree ts).
Proof.
  intros a c ts Hc. unfold node_mut.
  eapply mmono; [apply le_n| |apply (mcalls (fun x' x => x = (fst x', erase (snd x')))
    (let* (a', b) := make_mut vkids a in match v_elem b with None => Ret (a', b) | Some _ => Fail end) _ 1 _
    (fun r G => exists a', r = (a', c) /\ G = Held a' :: map Tree ts))].
  - cbn beta. intros r G (r' & -> & (a' & -> & ->)). eauto.
  - apply v_make_mut.
    + intros a' b Hn. rewrite elem_erase, Hn. now apply tr_ret.
    + reflexivity.
  - eapply (safe_seq vkids _ _ 1 0 _ _ [Tree (PT a c ts)] []); [apply safe_make_mut|perm| |lia].
    intros r G (a' & -> & ->). rewrite Hc. apply safe_ret. rewrite app_nil_r. eauto.
Qed.

Lemma vcont_elem : forall n (c : B') ts, vcont n c ts -> v_elem c = None.
Proof using. intros n c ts H. now destruct H. Qed.

Lemma update_app2 : forall {Y} (f : Y -> res Y) l1 x l2 y, f x = Ok y -> update_nth f (length l1) (l1 ++ x :: l2) = Ok (l1 ++ y :: l2).
Proof using. intros Y f l1 x l2 y H. induction l1 as [|z l1 IH]; cbn; [now rewrite H|now rewrite IH]. Qed.

Ltac inv H x E := apply lift_inv in H; destruct H as (x & E & H).
Ltac mseq n1 n2 G1 F tac := eapply (mseq _ _ n1 n2 _ _ G1 F); [tac|perm| |unfold lv; lia].

Lemma wvn_get_mut_ok : forall f l index height n e x c ts,
  vn_get ubits dbg f bits n index height = Ok (e, x) -> vmay S l x -> udep n height -> vcont n c ts ->
  msafe (lv height + irun_cost l x) (wvn_get_mut ubits dbg I (lv height) bits l (erase c) index height) (map Tree ts)
    (fun r G => snd r = snd (vrun l x) /\ exists c' e' n' ts', fst r = erase c' /\ G = map Tree ts' /\ vcont n' c' ts' /\
       vn_get_mut ubits dbg f bits (fun _ => (e', fst (vrun l x))) n index height = Ok n').
Proof.
  induction f as [|f IH]; intros l index height n e x c ts E0 M U Vc; [discriminate|].
  cbn [vn_get vn_get_mut] in *. unfold lv at 2. cbn [wvn_get_mut]. inv E0 b Eb. rewrite Eb. cbn [lift pbind bind].
  destruct Vc as [ns ts F|xs ts F]; cbn [v_map].
  - inversion U as [|? ? Hh Un]; subst. replace (N.to_nat height) with (lv (height - 1)) by (unfold lv; lia).
    assert (Es : usub ubits dbg height 1 = Ok (height - 1)%N) by (unfold usub; destruct (N.leb_spec 1 height); [trivial|lia]).
    rewrite Es in *. unfold index_nth in E0. destruct (nth_error ns (N.to_nat b)) as [n0|] eqn:En; [|discriminate].
    cbn [bind unwrap lift pbind] in *.
    destruct (Forall2_nth _ _ _ _ _ F En) as (l1 & l2 & m1 & y & m2 & -> & -> & L1 & L2 & Vy & F1 & F2).
    unfold index_nth. rewrite map_app at 1. cbn [map]. rewrite <- L1. rewrite <- (map_length pa m1) at 1.
    rewrite nth_app_len. cbn [unwrap lift pbind]. destruct Vy as [n0 a c0 ts0 Vc]. cbn [pa].
    rewrite (map_app Tree). cbn [map].
    mseq 1 (lv (height - 1) + irun_cost l x) [Tree (PT a c0 ts0)] (map (@Tree B') m1 ++ map Tree m2) ltac:(apply node_mut_ok, (vcont_elem _ _ _ Vc)).
    intros r G (a' & -> & ->). cbn [app].
    mseq (lv (height - 1) + irun_cost l x) 0 (map Tree ts0) (Held a' :: map (@Tree B') m1 ++ map Tree m2)
      ltac:(apply (IH l index (height - 1)%N n0 e x c0 ts0 E0 M); [apply Un, in_app_iff; right; now left|exact Vc]).
    intros [c1 xs] G (Exs & c' & e' & n' & ts' & Ec & -> & V' & Em). cbn [fst snd] in *. subst c1.
    apply (mfill a' c' ts' _ (map Tree m1 ++ map Tree m2)); [exact (vcont_elem _ _ _ V')|perm|eapply vcont_kids, V'|].
    intros G' Ex. destruct (Forall2_perm _ (Tree (PT a' c' ts') :: map Tree m1 ++ map Tree m2) (map Tree (m1 ++ PT a' c' ts' :: m2)) ltac:(rewrite map_app; cbn [map]; perm) _ Ex) as (G2 & P2 & Ex2).
    exists G2. split; [exact P2|]. eexists. split; [|exact Ex2]. cbn [fst snd].
    split; [exact Exs|]. exists (VB (map pa (m1 ++ PT a' c' ts' :: m2))), e', (VBranch (l1 ++ n' :: l2)), (m1 ++ PT a' c' ts' :: m2).
    splits; trivial.
    + cbn [v_map]. f_equal. rewrite !map_app. cbn [map pa]. now rewrite <- (map_length pa m1), put_app.
    + constructor. apply Forall2_app; trivial. constructor; trivial. now constructor.
    + replace (length m1) with (length l1) by congruence. rewrite (update_app2 _ l1 n0 l2 n' Em). reflexivity.
  - inversion U; subst. inv E0 u Ed. rewrite Ed. cbn [lift pbind bind].
    unfold index_nth in E0. destruct (nth_error xs (N.to_nat b)) as [y0|] eqn:En; [|discriminate]. injection E0 as ->.
    destruct (Forall2_nth _ _ _ _ _ F En) as (l1 & l2 & m1 & y & m2 & -> & -> & L1 & L2 & Vy & F1 & F2).
    unfold index_nth. rewrite map_app at 1. cbn [map]. rewrite <- L1. rewrite <- (map_length pa m1) at 1.
    rewrite nth_app_len. cbn [unwrap lift pbind]. destruct Vy as [p]. cbn [pa].
    rewrite (map_app Tree). cbn [map]. change (lv 0) with 1.
    mseq (1 + irun_cost l x) 0 [Tree (PT p (VE (e, x)) [])] (map (@Tree B') m1 ++ map Tree m2)
      ltac:(apply (update_ok I S rep ncost cost by_I (@v_elem E) vkids erase (@v_elem X) elem_erase elem_bkids v_put v_put
              ltac:(now intros []) ltac:(now intros []) l p (VE (e, x)) e x eq_refl M)).
    intros [a' xs] G (Exs & e' & ->). cbn [fst snd v_put app] in *.
    intros G' Ex. destruct (Forall2_perm _ (Tree (PT a' (VE (e', fst (vrun l x))) []) :: map Tree m1 ++ map Tree m2) (map Tree (m1 ++ PT a' (VE (e', fst (vrun l x))) [] :: m2)) ltac:(rewrite map_app; cbn [map]; perm) _ Ex) as (G2 & P2 & Ex2).
    exists G2. split; [exact P2|]. eexists. split; [|exact Ex2]. cbn [fst snd].
    split; [exact Exs|].
    exists (VL (map pa (m1 ++ PT a' (VE (e', fst (vrun l x))) [] :: m2))), e', (VLeaf (l1 ++ (e', fst (vrun l x)) :: l2)), (m1 ++ PT a' (VE (e', fst (vrun l x))) [] :: m2).
    splits; trivial.
    + cbn [v_map]. f_equal. rewrite !map_app. cbn [map pa]. now rewrite <- (map_length pa m1), put_app.
    + constructor. apply Forall2_app; trivial. constructor; trivial. constructor.
    + replace (length m1) with (length l1) by congruence. now rewrite (update_app2 _ l1 (e, x) l2 (e', fst (vrun l x)) eq_refl).
Qed.

Lemma wv_get_mut_ok : forall i l v s G, hvrep v s G -> opt_may S l (option_map snd (at_N s i)) ->
  msafe (levels bits (len s) + 1 + opt_cost S cost l (option_map snd (at_N s i))) (wv_get_mut ubits dbg I v i l) G
    (fun r G' => snd r = option_map (fun y => snd (vrun l (snd y))) (at_N s i) /\
       match at_N s i with
       | Some y => exists e', hvrep (fst r) (map_at_N (fun _ => (e', fst (vrun l (snd y)))) i s) G'
       | None => hvrep (fst r) s G'
       end).
Proof.
  intros i l v s G (w & R & L & Tw) M. pose proof (limit_lt' ubits dbg bits Hu Hb Hbu) as Ll.
  pose proof (v_get_ok ubits dbg bits Hu Hb Hbu w s i R ltac:(lia)) as E0.
  destruct (rep_height ubits dbg bits Hu Hb Hbu w s R L) as (h & Hh & U & Eh & _). destruct (rep_bits bits w s R) as [B1 B2].
  pose proof Tw as (t & -> & Vt & ->). unfold v_get in E0. unfold wv_get_mut. cbn [hv_length hv_bits hv_root].
  destruct (v_length w <=? i)%N eqn:Ei.
  - injection E0 as <-. intros G' Ex. apply safe_ret. exists [Tree t]. split; [|exact Ex]. split; [trivial|].
    cbn [fst]. exists w. splits; trivial.
  - change (hv_height ubits dbg (mkHV (pa t) (v_bits w) (v_length w))) with (v_height ubits dbg w).
    rewrite Hh in *. cbn [bind lift pbind] in *. inv E0 y Er. injection E0 as E0. destruct y as [e x].
    rewrite <- E0 in *. cbn [option_map opt_may opt_cost snd] in *.
    destruct t as [a c ts]. assert (Vc : vcont (v_root w) c ts) by now inversion Vt. cbn [pa]. rewrite B1 in *.
    mseq 1 (Datatypes.S h + irun_cost l x) [Tree (PT a c ts)] (@nil (@own B')) ltac:(apply node_mut_ok, (vcont_elem _ _ _ Vc)).
    intros r0 G (a' & -> & ->). rewrite app_nil_r.
    mseq (Datatypes.S h + irun_cost l x) 0 (map Tree ts) [Held (C := B') a']
      ltac:(replace (Datatypes.S h) with (lv (N.of_nat h)) by (unfold lv; lia); apply (wvn_get_mut_ok _ _ _ _ _ _ _ _ _ Er M U Vc)).
    intros [c1 xs] G (Exs & c' & e' & n' & ts' & Ec & -> & V' & Em). cbn [fst snd] in *. subst c1.
    apply (mfill a' c' ts' _ []); [exact (vcont_elem _ _ _ V')|perm|eapply vcont_kids, V'|].
    apply mret. cbn [fst snd]. split; [now rewrite Exs|]. exists e'.
    destruct (v_get_mut_ok ubits dbg bits Hu Hb Hbu w s i (fun _ => (e', fst (vrun l x))) R) as (w' & E1 & R'); [lia|].
    unfold v_get_mut in E1. rewrite Ei, Hh, B1 in E1. cbn [bind] in E1. rewrite Em in E1. cbn [bind] in E1. injection E1 as <- _.
    eexists. splits; [exact R'| |].
    + unfold map_at_N. destruct (in_range i s); trivial. unfold len. rewrite map_at_length. exact L.
    + exists (PT a' c' ts'). splits; trivial. now constructor.
Qed.

(** *** The elements are where the references point. *)
Lemma get_sub : forall f index height n (y : X) (c : B') ts, vn_get ubits dbg f bits n index height = Ok y -> vcont n c ts ->
  exists a t, In t ts /\ sub (PT a (VE y) []) t.
Proof using.
  induction f as [|f IH]; intros index height n y c ts E0 Vc; [discriminate|].
  cbn [vn_get] in E0. inv E0 b Eb. unfold index_nth in E0. destruct Vc as [ns ts F|xs ts F].
  - inv E0 n0 En. inv E0 h Eh. destruct (nth_error ns (N.to_nat b)) as [n1|] eqn:E1; [|discriminate]. injection En as ->.
    destruct (Forall2_nth _ _ _ _ _ F E1) as (l1 & l2 & m1 & t & m2 & -> & -> & _ & _ & Vy & _ & _).
    destruct Vy as [n0 a c0 ts0 Vc]. destruct (IH _ _ _ _ _ _ E0 Vc) as (a' & t & Hi & Su).
    exists a', (PT a c0 ts0). split; [apply in_app_iff; right; now left|]. econstructor; [exact Hi|exact Su].
  - inv E0 u Ed. destruct (nth_error xs (N.to_nat b)) as [x1|] eqn:E1; [|discriminate]. injection E0 as ->.
    destruct (Forall2_nth _ _ _ _ _ F E1) as (l1 & l2 & m1 & t & m2 & -> & -> & _ & _ & Vy & _ & _).
    destruct Vy as [a]. exists a, (PT a (VE y) []). split; [apply in_app_iff; right; now left|constructor].
Qed.

Lemma all_held : forall v (s : list X) G y, hvrep v s G -> In y s -> holds v_elem y G.
Proof.
  intros v s G y (w & R & L & t & -> & Vt & ->) Hy. pose proof (limit_lt' ubits dbg bits Hu Hb Hbu) as Ll.
  destruct (in_at_N s y Hy) as (i & Ey).
  pose proof (v_get_ok ubits dbg bits Hu Hb Hbu w s i R ltac:(lia)) as E0. rewrite Ey in E0.
  destruct (rep_bits bits w s R) as [B1 _]. unfold v_get in E0. destruct (v_length w <=? i)%N; [easy|].
  inv E0 h Eh. inv E0 y' E1. injection E0 as ->. rewrite B1 in E1. destruct Vt as [n a c ts Vc].
  destruct (get_sub _ _ _ _ _ _ _ E1 Vc) as (a' & t & Hi & Su). exists a', (VE y). split; [trivial|].
  exists (PT a c ts). split; [now left|]. econstructor; [exact Hi|exact Su].
Qed.

(** *** Every call *)
Definition wvrep (v : hvec) (s : list V) (G : list (@own D)) : Prop :=
  exists l G0, hvrep v l G0 /\ exts G0 G /\ s = map snd l.

Definition wv_cost (o : nvop Op) (s : list V) : nat :=
  match o with
  | NVPush l | NVPushMut l => makes_cost S ncost cost [l] + vec_cost bits (VPush (s_new S)) s
  | NVExtend ls => makes_cost S ncost cost ls + vec_cost bits (VExtend (map (fun _ => s_new S) ls)) s
  | NVCopy i l => opt_cost S cost l (at_N s i) + vec_cost bits (VPush (s_new S)) s
  | NVSet i l | NVSetMut i l => makes_cost S ncost cost [l] + vec_cost bits (VSet i (s_new S)) s
  | NVUpdate i l => levels bits (len s) + 1 + opt_cost S cost l (at_N s i)
  | NVDrop | NVDropMut => vec_cost bits (VDrop (T := V)) s
  | NVGet i l => opt_cost S cost l (at_N s i)
  | NVFirst l => opt_cost S cost l (hd_error s)
  | NVLast l => opt_cost S cost l (last_error s)
  | NVIter ds l => sum_cost S cost l (map snd (de_spec ds s))
  | NVLen | NVIsEmpty => 0
  end.

Notation seq n1 n2 G1 F := (safe_seq kids _ _ n1 n2 _ _ G1 F).

Lemma put_ok : forall op op' ls v l G0 G k,
  (forall fl, length fl = length ls -> op (map fst fl) = op_map fst (op' fl) /\ op_args (op' fl) = fl /\ no_mut (op' fl) /\
     vec_cost bits (op' fl) l <= k /\ (len (fst (vec_spec (op' fl) l)) <= limit)%N) ->
  hvrep v l G0 -> exts G0 G -> Forall (fun l => vmay S l (s_new S)) ls ->
  safe (makes_cost S ncost cost ls + k) (wv_put ubits dbg I op v ls) G
    (fun r G' => exists fl G1, map snd fl = map (made S) ls /\ snd r = map (fun l => shown_by S l (s_new S)) ls /\
       snd (fst r) = obs_map fst (snd (vec_spec (op' fl) l)) /\ hvrep (fst (fst r)) (fst (vec_spec (op' fl) l)) G1 /\ exts G1 G').
Proof.
  intros op op' ls v l G0 G k K R Ex M. unfold wv_put.
  eapply (seq (makes_cost S ncost cost ls) k [] G);
    [exact (makes_ok I S rep ncost cost by_I (@v_elem E) vkids ls M)|apply Permutation_refl| |lia].
  intros [es xss] W (fl & E1 & E2 & E3 & Lo). cbn [fst snd] in *. subst es.
  assert (Lf : length fl = length ls) by (rewrite <- (map_length snd fl), E3; apply map_length).
  destruct (K fl Lf) as (Eo & Ea & Hn & Hc & Hl). rewrite Eo.
  eapply (seq k 0 (G ++ W) []); [|rewrite app_nil_r; apply Permutation_app_comm| |lia].
  - pattern fl at 2. rewrite <- Ea. eapply safe_mono; [exact Hc| |apply (step_ok (op' fl) v l G0 G W Hn R Ex); [now rewrite Ea|exact Hl]].
    intros r G' H. exact H.
  - cbn beta. intros [v1 o1] G' (G1 & Eo1 & R1 & Ex1). cbn [fst snd] in *. rewrite app_nil_r. apply safe_ret.
    exists fl, G1. splits; trivial.
Qed.

Lemma get_ok : forall o v l G0 G y, no_mut o -> op_args o = [] -> vec_cost bits o l = 0 ->
  vec_spec o l = (l, OElem y) -> hvrep v l G0 -> exts G0 G ->
  safe 0 (calls I v_elem (hv_step ubits dbg (op_map fst o) v) []) G
    (fun r G' => snd r = OElem (option_map fst y) /\ exists G1, hvrep (fst r) l G1 /\ exts G1 G').
Proof.
  intros o v l G0 G y Hn Ha Hc Es R Ex.
  pose proof (step_ok o v l G0 G [] Hn R Ex) as H. rewrite Ha, Hc, Es, app_nil_r in H. cbn [map fst snd obs_map] in H.
  eapply safe_mono; [apply le_n| |apply H].
  - cbn beta. intros r G' (G1 & E1 & R1 & Ex1). eauto.
  - constructor.
  - destruct R as (w & _ & L & _). exact L.
Qed.

Lemma wpeek_ok : forall o v l G0 G y q, no_mut o -> op_args o = [] -> vec_cost bits o l = 0 ->
  vec_spec o l = (l, OElem y) -> (forall z, y = Some z -> In z l) -> hvrep v l G0 -> exts G0 G ->
  opt_may S q (option_map snd y) ->
  safe (opt_cost S cost q (option_map snd y)) (wv_peek ubits dbg I (op_map fst o) v q) G
    (fun r G' => snd r = NOuts (option_map (shown_by S q) (option_map snd y)) /\ wvrep (fst r) (map snd l) G').
Proof.
  intros o v l G0 G y q Hn Ha Hc Es Hi R Ex M. unfold wv_peek.
  eapply (seq 0 (opt_cost S cost q (option_map snd y)) G []); [exact (get_ok o v l G0 G y Hn Ha Hc Es R Ex)|rewrite app_nil_r; apply Permutation_refl| |lia].
  intros [v1 o1] G' (E1 & G1 & R1 & Ex1). cbn [fst snd] in *. subst o1. rewrite app_nil_r.
  eapply (seq (opt_cost S cost q (option_map snd y)) 0 G' []);
    [apply (peek_ok I S rep ncost cost by_I (@v_elem E) vkids erase (@v_elem X) q y G1 G')|rewrite app_nil_r; apply Permutation_refl| |lia]; trivial.
  - intros z Ez. eapply all_held; [exact R1|]. now apply Hi.
  - intros r G2 (-> & ->). rewrite app_nil_r. apply safe_ret. cbn [fst snd]. split; [reflexivity|]. exists l, G1. auto.
Qed.

Ltac ap := rewrite app_nil_r; apply Permutation_refl.

Lemma wv_step_ok : forall o v s G, wvrep v s G -> wv_pre S ubits dbg bits o s ->
  safe (wv_cost o s) (wv_step ubits dbg I o v) G
    (fun r G' => snd r = snd (wv_val S o s) /\ wvrep (fst r) (fst (wv_val S o s)) G').
Proof.
  intros o v s G (l & G0 & R & Ex & ->) (Hl & M).
  assert (Ll : (len l <= limit)%N) by (destruct R as (w & _ & L & _); exact L).
  assert (Lv : hv_length v = len l) by (destruct R as (w & (_ & E1 & _) & _ & t & -> & _); exact E1).
  assert (push : forall (y : X) z, (len (map snd l ++ [z]) <= limit)%N -> (len (fst (vec_spec (VPush y) l)) <= limit)%N).
  { intros y z H. cbn [vec_spec fst]. rewrite len_app, len_map, len_cons, len_nil in H. now rewrite len_app, len_cons, len_nil. }
  assert (one : forall k, vmay S k (s_new S) -> Forall (fun l => vmay S l (s_new S)) [k]) by now repeat constructor.
  destruct o as [q|q|ls|i q|i q|i q|i q| | |i q|q|q|ds q| |]; cbn [wv_step wv_val wv_cost fst snd] in *.
  - eapply (seq _ 0 G []); [apply (put_ok (hd_op VPush) (hd_op VPush) [q] v l G0 G (vec_cost bits (VPush (s_new S)) (map snd l))); auto|ap| |rewrite Nat.add_0_r; apply le_n].
    + intros [|y [|]] Lf; try discriminate. cbn [hd_op map op_map op_args no_mut vec_cost]. rewrite len_map. splits; eauto.
    + intros [[v1 o1] xss] G' ([|[e x] [|]] & G1 & E1 & E2 & E3 & R1 & Ex1); try discriminate. cbn [fst snd hd_op vec_spec] in *.
      injection E1 as ->. subst xss. rewrite app_nil_r. apply safe_ret. split; [reflexivity|].
      exists (l ++ [(e, made S q)]), G1. cbn [fst]. splits; trivial. now rewrite map_app.
  - eapply (seq _ 0 G []); [apply (put_ok (hd_op VPushMut) (hd_op VPushMut) [q] v l G0 G (vec_cost bits (VPush (s_new S)) (map snd l))); auto|ap| |rewrite Nat.add_0_r; apply le_n].
    + intros [|y [|]] Lf; try discriminate. cbn [hd_op map op_map op_args no_mut vec_cost]. rewrite len_map. splits; auto. exact (push y _ Hl).
    + intros [[v1 o1] xss] G' ([|[e x] [|]] & G1 & E1 & E2 & E3 & R1 & Ex1); try discriminate. cbn [fst snd hd_op vec_spec] in *.
      injection E1 as ->. subst xss. rewrite app_nil_r. apply safe_ret. split; [reflexivity|].
      exists (l ++ [(e, made S q)]), G1. cbn [fst]. splits; trivial. now rewrite map_app.
  - eapply (seq _ 0 G []); [apply (put_ok VExtend VExtend ls v l G0 G (vec_cost bits (VExtend (map (fun _ => s_new S) ls)) (map snd l))); auto|ap| |rewrite Nat.add_0_r; apply le_n].
    + intros fl Lf. cbn [op_map op_args no_mut vec_cost vec_spec fst]. rewrite !len_map, map_length.
      assert (Lf' : len fl = len ls) by (unfold len; now rewrite Lf). rewrite Lf, Lf'. splits; auto.
      rewrite len_app, !len_map in Hl. now rewrite len_app, Lf'.
    + intros [[v1 o1] xss] G' (fl & G1 & E1 & E2 & E3 & R1 & Ex1). cbn [fst snd vec_spec] in *.
      subst xss. rewrite app_nil_r. apply safe_ret. split; [reflexivity|].
      exists (l ++ fl), G1. cbn [fst]. splits; trivial. rewrite map_app. now rewrite E1.
  - rewrite at_N_map in *.
    eapply (seq 0 (opt_cost S cost q (option_map snd (at_N l i)) + vec_cost bits (VPush (s_new S)) (map snd l)) G []);
      [exact (get_ok (VGet i) v l G0 G (at_N l i) Logic.I eq_refl eq_refl eq_refl R Ex)|ap| |apply le_n].
    intros [v1 o1] G' (E1 & G1 & R1 & Ex1). cbn [fst snd] in *. subst o1. rewrite app_nil_r.
    destruct (at_N l i) as [[e x]|] eqn:Ea; cbn [option_map opt_may opt_cost fst snd] in *.
    + destruct (holds_lent rep erase (@v_elem X) _ _ _ (all_held _ _ _ _ R1 (at_N_in _ _ _ Ea)) Ex1) as (us & Er & Le). cbn [fst snd] in *.
      eapply (seq 0 _ G' []); [exact (clone_elem I S rep ncost cost by_I (@DI B C) d_isI kids (fun _ => eq_refl) (fun _ => eq_refl) _ _ _ G' Er Le)|ap| |apply le_n].
      intros e' G2 (G3 & -> & R3). rewrite app_nil_r.
      eapply (seq (irun_cost q x) (vec_cost bits (VPush (s_new S)) (map snd l)) (map (up DI) G3) G');
        [exact (work_ok I S rep ncost cost by_I (@DI B C) d_isI kids (fun _ => eq_refl) (fun _ => eq_refl) q e' x G3 R3 M)|apply Permutation_app_comm| |lia].
      intros [e3 xs] G2 (G4 & -> & Exs & R4). cbn [fst snd] in *. subst xs.
      destruct (rep_erep I S rep ncost cost by_I (@DI B C) _ _ _ R4) as (us4 & -> & Er4).
      eapply (seq (vec_cost bits (VPush (s_new S)) (map snd l)) 0 (G' ++ (map Tree us4 ++ [])) []); [|rewrite !app_nil_r; apply Permutation_app_comm| |lia].
      * eapply safe_mono; [| |apply (step_ok (VPushMut (e3, fst (vrun q x))) v1 l G1 G' (map Tree us4 ++ []) Logic.I R1 Ex1)].
        -- cbn [vec_cost]. now rewrite len_map.
        -- intros r G2 H. exact H.
        -- cbn [op_args]. constructor; [exact Er4|constructor].
        -- exact (push _ _ Hl).
      * cbn beta. intros [v2 o2] G2 (G5 & _ & R5 & Ex5). cbn [fst snd vec_spec] in *. rewrite app_nil_r. apply safe_ret.
        split; [reflexivity|]. eexists _, G5. cbn [fst]. splits; [exact R5|exact Ex5|]. now rewrite map_app.
    + apply safe_ret. cbn [fst snd]. split; [reflexivity|]. exists l, G1. auto.
  - eapply (seq _ 0 G []); [apply (put_ok (hd_op (VSet i)) (hd_op (VSet i)) [q] v l G0 G (vec_cost bits (VSet i (s_new S)) (map snd l))); auto|ap| |rewrite Nat.add_0_r; apply le_n].
    + intros [|y [|]] Lf; try discriminate. cbn [hd_op map op_map op_args no_mut vec_cost vec_spec fst]. rewrite len_map, map_at_N_len. splits; auto.
    + intros [[v1 o1] xss] G' ([|[e x] [|]] & G1 & E1 & E2 & E3 & R1 & Ex1); try discriminate. cbn [fst snd hd_op vec_spec obs_map] in *.
      injection E1 as ->. subst xss o1. rewrite app_nil_r. apply safe_ret. cbn [fst snd]. rewrite in_range_map. split; [reflexivity|].
      eexists _, G1. splits; [exact R1|trivial|]. now apply map_at_N_map.
  - eapply (seq _ 0 G []); [apply (put_ok (hd_op (VSetMut i)) (hd_op (VSetMut i)) [q] v l G0 G (vec_cost bits (VSet i (s_new S)) (map snd l))); auto|ap| |rewrite Nat.add_0_r; apply le_n].
    + intros [|y [|]] Lf; try discriminate. cbn [hd_op map op_map op_args no_mut vec_cost vec_spec fst]. rewrite len_map, map_at_N_len. splits; auto.
    + intros [[v1 o1] xss] G' ([|[e x] [|]] & G1 & E1 & E2 & E3 & R1 & Ex1); try discriminate. cbn [fst snd hd_op vec_spec obs_map] in *.
      injection E1 as ->. subst xss o1. rewrite app_nil_r. apply safe_ret. cbn [fst snd]. rewrite in_range_map. split; [reflexivity|].
      eexists _, G1. splits; [exact R1|trivial|]. now apply map_at_N_map.
  - rewrite at_N_map in *. rewrite len_map.
    eapply (seq _ 0 G []); [exact (wv_get_mut_ok i q v l G0 R M G Ex)|ap| |rewrite Nat.add_0_r; apply le_n].
    intros [v1 r1] G' (G1 & (E1 & R1) & Ex1). cbn [fst snd] in *. subst r1. rewrite app_nil_r. apply safe_ret. cbn [fst snd].
    split; [now destruct (at_N l i)|]. destruct (at_N l i) as [[e x]|] eqn:Ea.
    + destruct R1 as (e' & R1). eexists _, G1. splits; [exact R1|trivial|]. cbn [snd]. eapply map_at_N_at; [exact Ea|reflexivity].
    + exists l, G1. splits; trivial. apply map_at_N_none. now rewrite at_N_map, Ea.
  - eapply (seq (vec_cost bits (VDrop (T := V)) (map snd l)) 0 (G ++ []) []); [|rewrite !app_nil_r; apply Permutation_refl| |lia].
    + eapply safe_mono; [| |apply (step_ok VDrop v l G0 G [] Logic.I R Ex)].
      * cbn [vec_cost]. now rewrite len_map.
      * intros r G2 H. exact H.
      * constructor.
      * cbn [vec_spec fst]. rewrite removelast_map, len_map in Hl. exact Hl.
    + cbn beta. intros [v1 o1] G' (G1 & E1 & R1 & Ex1). cbn [fst snd vec_spec obs_map] in *. subst o1. rewrite app_nil_r.
      apply safe_ret. cbn [fst snd]. rewrite is_nil_map. split; [reflexivity|]. eexists _, G1. splits; [exact R1|trivial|]. apply removelast_map.
  - eapply (seq (vec_cost bits (VDrop (T := V)) (map snd l)) 0 (G ++ []) []); [|rewrite !app_nil_r; apply Permutation_refl| |lia].
    + eapply safe_mono; [| |apply (step_ok VDropMut v l G0 G [] Logic.I R Ex)].
      * cbn [vec_cost]. now rewrite len_map.
      * intros r G2 H. exact H.
      * constructor.
      * cbn [vec_spec fst]. rewrite removelast_map, len_map in Hl. exact Hl.
    + cbn beta. intros [v1 o1] G' (G1 & E1 & R1 & Ex1). cbn [fst snd vec_spec obs_map] in *. subst o1. rewrite app_nil_r.
      apply safe_ret. cbn [fst snd]. rewrite is_nil_map. split; [reflexivity|]. eexists _, G1. splits; [exact R1|trivial|]. apply removelast_map.
  - rewrite at_N_map in *. apply (wpeek_ok (VGet i) v l G0 G (at_N l i) q Logic.I eq_refl eq_refl eq_refl); trivial. intros z. apply at_N_in.
  - rewrite hd_error_map in *. apply (wpeek_ok VFirst v l G0 G (hd_error l) q Logic.I eq_refl eq_refl eq_refl); trivial. intros z. apply hd_error_in.
  - rewrite last_error_map in *. apply (wpeek_ok VLast v l G0 G (last_error l) q Logic.I eq_refl eq_refl eq_refl); trivial. intros z. apply last_error_in.
  - rewrite de_spec_map.
    eapply (seq 0 _ (G ++ []) []); [apply (step_ok (VIter ds) v l G0 G [] Logic.I R Ex); [constructor|exact Ll]|rewrite !app_nil_r; apply Permutation_refl| |apply le_n].
    cbn beta. intros [v1 o1] G' (G1 & E1 & R1 & Ex1). cbn [fst snd vec_spec obs_map] in *. subst o1. rewrite app_nil_r.
    eapply (seq _ 0 G' []); [apply (peeks_ok I S rep ncost cost by_I (@v_elem E) vkids erase (@v_elem X) q (de_spec ds l) G1 G')|ap| |].
    + intros n y Hi. eapply all_held; [exact R1|]. eapply de_spec_in, Hi.
    + exact Ex1.
    + intros n y Hi. rewrite Forall_map, Forall_forall in M. apply M. eapply de_spec_in, Hi.
    + intros r G2 (-> & ->). rewrite app_nil_r. apply safe_ret. cbn [fst snd]. split.
      * f_equal. rewrite map_map. apply map_ext. now intros [n [y|]].
      * exists l, G1. auto.
    + rewrite Nat.add_0_r, map_map. apply le_n.
  - apply safe_ret. cbn [fst snd]. rewrite Lv, map_length. unfold len. rewrite Nat2N.id. split; [trivial|]. exists l, G0. auto.
  - apply safe_ret. cbn [fst snd]. rewrite Lv, is_nil_map. split; [|exists l, G0; auto].
    destruct l; [reflexivity|]. rewrite len_cons. destruct (N.eqb_spec (len l + 1) 0); [lia|reflexivity].
Qed.

Lemma tr_hv_new : traces erase (@v_elem X) (fun x' x _ => x' = x) [] (hv_new bits) (hv_new bits).
Proof using. unfold hv_new. destruct (0 <? bits)%N; [|apply tr_fail]. apply tr_new; trivial. intros a. now apply tr_ret. Qed.

Lemma root_of : forall v s G, wvrep v s G -> exists t, G = [Tree t] /\ hv_root v = pa t.
Proof using.
  intros v s G (l & G0 & (w & _ & _ & t & -> & _ & ->) & Ex & _). inversion Ex as [|? o' ? G' Eo F0]; subst. inversion F0; subst.
  inversion Eo as [? t' Et|]; subst. exists t'. split; [trivial|]. exact (ext_pa _ _ _ _ _ Et).
Qed.

Theorem vector_of_by : implements_by (vector_of ubits dbg I bits) (vector_of_spec S ubits dbg bits) wvrep 1 wv_cost.
Proof.
  constructor.
  - cbn [i_kids i_new vector_of s_new vector_of_spec]. eapply safe_mono; [apply le_n| |apply (mcalls eq _ _ 1 [] _ tr_hv_new (hv_new_ok ubits dbg bits Hu Hb Hbu) []); constructor].
    cbn beta. intros v G' (G1 & (v' & <- & R) & Ex). exists [], G1. auto.
  - intros v s G R. destruct (root_of _ _ _ R) as ([a c ts] & -> & Er). cbn [i_kids i_clone vector_of].
    unfold calls, hv_clone. cbn [host pbind drop_left]. cbn [HeapSafe.safe]. rewrite Er. cbn [pa].
    exists c, ts. split; [apply lent_in; now left|]. eexists. split; [apply perm_swap || apply Permutation_refl|].
    exists [Tree (PT a c ts)]. split; [reflexivity|exact R].
  - intros v. cbn [i_clone vector_of]. unfold calls, hv_clone. cbn [host pbind drop_left]. repeat constructor.
  - intros v s G (l & G0 & R & Ex & _). cbn [i_kids i_drop vector_of].
    eapply safe_mono; [apply le_n| |apply (mcalls (fun _ _ => True) _ _ 0 G0 _ (tr_mono _ _ _ _ _ _ _ (tr_hv_drop ubits dbg [] v) (fun _ _ _ _ => Logic.I)) (hv_drop_ok ubits dbg bits Hu Hb Hbu v l G0 R) G Ex)].
    cbn beta. intros x G' (G1 & (x' & _ & ->) & Ex1). now inversion Ex1.
  - intros o v s G R H. exact (wv_step_ok o v s G R H).
  - intros v s G R. destruct (root_of _ _ _ R) as (t & -> & Er). exists [t]. split; [trivial|]. cbn [i_roots vector_of map]. now rewrite Er.
Qed.
End VecOf.

Theorem vector_of_ok : forall {C E V Op Out} (I : impl C E Op Out) (S : spec V Op Out) ubits dbg bits,
  (8 <= ubits)%N -> (0 < bits)%N -> (bits < ubits)%N -> implements I S ->
  implements (vector_of ubits dbg I bits) (vector_of_spec S ubits dbg bits).
Proof.
  intros C E V Op Out I S ubits dbg bits Hu Hb Hbu (rep & ncost & cost & H).
  do 3 eexists. exact (vector_of_by ubits dbg bits Hu Hb Hbu I S rep ncost cost H).
Qed.
