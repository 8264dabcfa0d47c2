(** Property C60: what iterating a RedBlackTreeMap, or a range of it, asks user code. *)
From Coq Require Import List NArith Arith Bool Lia Permutation Sorted.
From Verif Require Import Base Spec SpecMap SpecOrd SpecLoose SpecTalk SpecRange Sim RBModel RBProofs RBHist RBIter Prop_RB
  LawlessModel LawlessRB LawlessIter LawlessAgree Prop_Lawless RangeCalls.
Import ListNotations.

Notation keys_of m := (map fst (elems (rb_root m))).

Lemma asks_weaken : forall K n (ks : list K) bw again again' alone alone' l p, asks n ks bw again alone l p ->
  (again' = true -> again = true) -> (alone' = true -> alone = true) -> asks n ks bw again' alone' l p.
Proof.
  intros K n ks bw ag ag' al al' l p ((s & c & g & e & E & A1 & L1 & A2 & L2 & A3 & L3 & A4 & L4) & Hp) Hag Hal.
  split; [|exact Hp]. exists s, c, g, e. repeat (split; [assumption|]).
  split; [destruct ag'; [rewrite Hag in L1 by reflexivity; lia|destruct ag; lia]|]. split; [assumption|].
  split; [destruct ag'; [rewrite Hag in L2 by reflexivity; lia|destruct ag; lia]|]. split; [assumption|].
  split; [destruct al'; [rewrite Hal in L3 by reflexivity; lia|destruct al; lia]|]. split; assumption.
Qed.

(** One call of [next] ([false]) or [next_back] ([true]) after any others, on any map, with any
    bounds and orders: which questions it asks, in which order, and that it asks no more once
    user code has panicked.  Only keys of the map are asked about. *)
Theorem C60_range_call : forall (W W' K V Q : Type) (dbg : bool) (U : ord_code W' K V Q) (m : rbmap K V),
  w_rb_reached dbg U m -> exists n, (N.of_nat n <= 2 * N.log2 (N.of_nat (rb_size m) + 1))%N /\
  forall (R : range_code W K) ds w0 w i outs, w_iterate (wi_step R) ds w0 (wi_new m) = Ok (w, i, outs) ->
  forall backwards, exists w' x l,
  wi_step R backwards w i = Ok (w', x) /\ talk (r_ask R) w l w' /\
  forall again alone,
    (again = true -> been_here backwards ds outs) -> (alone = true -> ~ In (negb backwards) ds) ->
    asks n (keys_of m) backwards again alone l match x with Gave _ => false | Torn _ => true end.
Proof.
  intros W W' K V Q dbg U m Hr. apply w_rb_reached_shape in Hr. exists (hgt (rb_root m)). split; [now apply shape_hgt|].
  intros R ds w0 w i outs E bw.
  destruct (run_talk R ds m w0 (wi_new m) (iok_new m)) as (w1 & i1 & outs1 & l1 & E1 & _ & Hi & _ & _ & H2 & H3 & _).
  assert (w1 = w /\ i1 = i /\ outs1 = outs) as (-> & -> & ->) by (split; [congruence|split; congruence]).
  destruct (step_talk R m bw w i Hi) as (w' & x & l & Es & T & Ha & _). exists w', x, l. split; [exact Es|]. split; [exact T|].
  intros ag al Hag Hal. eapply asks_weaken; [exact Ha| |].
  - intros X. now apply H2, Hag.
  - intros X. rewrite (H3 (negb bw)); [reflexivity|now destruct bw|now apply Hal].
Qed.
Print Assumptions C60_range_call.

(** Together, from both ends in any order: two questions per call, and a search for every end
    and for every time that user code panicked. *)
Theorem C60_range_total : forall (W W' K V Q : Type) (dbg : bool) (U : ord_code W' K V Q) (m : rbmap K V),
  w_rb_reached dbg U m -> forall (R : range_code W K) ds w, exists w' i outs l,
  w_iterate (wi_step R) ds w (wi_new m) = Ok (w', i, outs) /\ talk (r_ask R) w l w' /\
  (N.of_nat (length l) <= 2 * N.of_nat (length ds)
     + (2 * N.log2 (N.of_nat (rb_size m) + 1) + 1) * (2 + N.of_nat (stopped outs)))%N.
Proof.
  intros W W' K V Q dbg U m Hr R ds w. apply w_rb_reached_shape in Hr. pose proof (shape_hgt m Hr) as Hh.
  destruct (run_talk R ds m w (wi_new m) (iok_new m)) as (w1 & i1 & outs1 & l1 & E1 & T & _ & _ & _ & _ & _ & H).
  exists w1, i1, outs1, l1. split; [exact E1|]. split; [exact T|].
  change (begun false (wi_new m)) with false in H. change (begun true (wi_new m)) with false in H. cbv iota in H.
  set (h := hgt (rb_root m)) in *. set (L := N.log2 (N.of_nat (rb_size m) + 1)) in *. clearbody h L.
  assert (H1 : length l1 <= 2 * length ds + (h + 1) * (stopped outs1 + 2)) by lia. clear H.
  set (st := stopped outs1) in *. clearbody st.
  assert (H2 : (N.of_nat (length l1) <= 2 * N.of_nat (length ds) + (N.of_nat h + 1) * (2 + N.of_nat st))%N) by lia.
  assert (H3 : ((N.of_nat h + 1) * (2 + N.of_nat st) <= (2 * L + 1) * (2 + N.of_nat st))%N) by (apply N.mul_le_mono_r; lia). lia.
Qed.
Print Assumptions C60_range_total.

(** Lawful bounds, [next] or [next_back] alone, called at least once: the items are those of the
    range; after a search of the first item every entry is asked about in turn -- the items, as
    far as they are given or the next to be given, and the first entry past the range. *)
Theorem C60_range_lawful : forall (W K V Q : Type) (dbg : bool)
  (kcmp : K -> K -> comparison) (borrow : K -> Q) (qcmp : Q -> Q -> comparison),
  ord_laws qcmp -> borrow_agrees kcmp borrow qcmp ->
  forall (m : rbmap K V) (fm : fmap K V), rb_reached dbg kcmp borrow qcmp m fm ->
  forall (sb eb : bound Q) (R : range_code W K),
  (forall w k, exists b, snd (rg_start R w k) = Some b /\ (b = true <-> from_start qcmp sb (borrow k))) ->
  (forall w k, exists b, snd (rg_end R w k) = Some b /\ (b = true <-> to_end qcmp eb (borrow k))) ->
  forall backwards : bool,
  let before (x y : K * V) := kcmp (fst x) (fst y) = if backwards then Gt else Lt in
  let near_ok k := if backwards then to_end qcmp eb (borrow k) else from_start qcmp sb (borrow k) in
  let beyond_ok k := if backwards then from_start qcmp sb (borrow k) else to_end qcmp eb (borrow k) in
  (* the entries on from the start of the range, and the range *)
  exists A items : list (K * V),
  StronglySorted before A /\ (forall x, In x A <-> In x fm /\ near_ok (fst x)) /\
  (exists past, A = items ++ past /\ forall x, In x past -> ~ beyond_ok (fst x)) /\ (forall x, In x items -> beyond_ok (fst x)) /\
  forall n w, exists w' i s l,
  w_iterate (wi_step R) (repeat backwards (S n)) w (wi_new m) = Ok (w', i, map (fun p => Some (snd p)) (fwd_spec (S n) items)) /\
  talk (r_ask R) w (s ++ l) w' /\
  about (near backwards) (map fst fm) s /\ (N.of_nat (length s) <= 2 * N.log2 (N.of_nat (rb_size m) + 1))%N /\
  map fst l = map (fun e => beyond backwards (fst e)) (firstn (S (S n)) (firstn (S (length items)) A)).
Proof.
  intros W K V Q dbg kcmp borrow qcmp OL KB m fm H sb eb R HS HE bw before near_ok beyond_ok.
  apply rb_reached_rep in H; auto. pose proof (rep_hgt _ _ _ _ _ H) as Hh. destruct H as (Hs & Hp & Hz & _).
  assert (HS' : forall w k, snd (rg_start R w k) = Some (above qcmp sb (borrow k))).
  { intros w k. destruct (HS w k) as (b & -> & Hb). f_equal. apply eq_true_iff_eq. now rewrite above_iff. }
  assert (HE' : forall w k, snd (rg_end R w k) = Some (below qcmp eb (borrow k))).
  { intros w k. destruct (HE w k) as (b & -> & Hb). f_equal. apply eq_true_iff_eq. now rewrite below_iff. }
  clear HS HE. set (pre := RBIter.pre (V:=V) borrow qcmp sb eb bw). set (post := RBIter.post (V:=V) borrow qcmp sb eb bw).
  set (A := filter pre (RBIter.seq bw (rb_root m))).
  assert (Hpre : forall x : K * V, pre x = true <-> near_ok (fst x)).
  { intros x. unfold pre, RBIter.pre, near_ok. destruct bw; [apply below_iff|apply above_iff]. }
  assert (Hpost : forall x : K * V, post x = true <-> beyond_ok (fst x)).
  { intros x. unfold post, RBIter.post, beyond_ok. destruct bw; [apply above_iff|apply below_iff]. }
  assert (Hseq : forall x, In x (RBIter.seq bw (rb_root m)) <-> In x fm).
  { intros x. unfold RBIter.seq, RBIter.ord. split; intros Hx.
    - eapply Permutation_in; [exact Hp|]. destruct bw; [now apply in_rev|exact Hx].
    - assert (Hy : In x (elems (rb_root m))) by (eapply Permutation_in; [symmetry; exact Hp|exact Hx]). destruct bw; [now apply in_rev in Hy|exact Hy]. }
  assert (HA : StronglySorted (dlt kcmp bw) A).
  { apply SS_filter. now apply (ord_sorted kcmp bw). }
  exists A, (filter post A). split.
  { assert (OK : ord_laws kcmp).
    { eapply ord_k; [exact OL|exact KB]. }
    clear - HA OK. induction HA as [|a l H IH HF]; constructor; [exact IH|]. eapply Forall_impl; [|exact HF]. intros b Hb.
    unfold dlt in Hb. subst before. cbn beta. destruct bw; [|exact Hb]. rewrite (ol_sym _ OK), Hb. reflexivity. }
  split; [intros x; unfold A; now rewrite filter_In, Hseq, Hpre|].
  split.
  { clear - HA OL KB Hpost. induction HA as [|a l H IH HF]; [exists []; split; [reflexivity|intros x []]|]. cbn [filter].
    destruct (post a) eqn:E.
    - destruct IH as (past & El & Hn). exists past. split; [cbn [app]; congruence|exact Hn].
    - exists (a :: l). rewrite Forall_forall in HF.
      assert (Hno : forall x, In x (a :: l) -> post x = false).
      { intros x [<-|Hx]; [exact E|]. destruct (post x) eqn:Ex; [|reflexivity]. rewrite <- E. symmetry.
        eapply (post_mono kcmp borrow qcmp OL KB sb eb bw); [apply HF; exact Hx|exact Ex]. }
      rewrite (filter_none _ post l) by (intros x Hx; apply Hno; now right). split; [reflexivity|].
      intros x Hx Hb. apply Hpost in Hb. rewrite Hno in Hb by exact Hx. discriminate. }
  split; [intros x Hx; apply filter_In in Hx as (_ & Hx); now apply Hpost|].
  intros n w. destruct (law_range kcmp borrow qcmp OL KB sb eb R HS' HE' bw n m w Hs) as (w' & i & s & l & E & T & Ha & Hl & El).
  exists w', i, s, l. split; [exact E|]. split; [exact T|]. split.
  { intros q Hq. destruct (Ha q Hq) as (k & Hk & Ek). exists k. split; [|exact Ek]. eapply Permutation_in; [|exact Hk].
    now apply Permutation_map. }
  split; [rewrite Hz; lia|]. exact El.
Qed.
Print Assumptions C60_range_lawful.

(** [iter]: from one end no question at all is asked (C47_rb_iter_one_way); from both ends in
    any order at most one [>] per call, and together at most as many as there are entries. *)
Theorem C60_iter : forall (W W' K V Q : Type) (dbg : bool) (U : ord_code W' K V Q) (m : rbmap K V),
  w_rb_reached dbg U m -> forall (gt : W -> K -> K -> W * option bool) ds w, exists w' i outs l,
  w_iterate (wt_step (full_range gt)) ds w (wt_new m) = Ok (w', i, outs) /\
  talk (fun w q => gt w (fst q) (snd q)) w l w' /\
  length l <= Nat.min (length ds) (length (elems (rb_root m))) /\
  (forall a b o, In ((a, b), o) l -> In a (keys_of m) /\ In b (keys_of m)).
Proof.
  intros W W' K V Q dbg U m Hr gt ds w. apply w_rb_reached_shape in Hr. destruct Hr as (<- & _).
  destruct (whole_run gt ds m w (wt_new m) (iok_new m)) as (w' & i & outs & l & E & T & L & H).
  exists w', i, outs, l. split; [exact E|]. split; [exact T|]. split; [exact L|]. intros a b o Hin. apply (H _ Hin).
Qed.
Print Assumptions C60_iter.

(** *** Examples: the bounds and the order write down what they are asked. *)
Local Open Scope N_scope.
Definition ex60_map : res (rbmap N N) :=
  let! (_, m, _) := w_exec (w_rb_step true (pure_ord N.compare (fun k => k) N.compare)) (map (fun k => (false, MInsertMut k (k * 10))) [4; 2; 6; 1; 3; 5; 7; 8]) tt rb_new in
  Ok m.
Definition ex60_code (lo hi : N) : range_code (nat * list (range_call N)) N :=
  let say q b := fun '(n, l) => match n with O => ((O, l ++ [q]), None) | S n => ((n, l ++ [q]), Some b) end in
  mkRange _ _ (fun w k => say (RStart k) (lo <=? k) w) (fun w k => say (REnd k) (k <? hi) w) (fun w a b => say (RGt a b) (b <? a) w).
Definition ex60_run lo hi n ds : option (list (range_call N) * list (option (option N))) :=
  match ex60_map with
  | Ok m => match w_iterate (wi_step (ex60_code lo hi)) ds (n, []) (wi_new m) with
            | Ok ((_, l), _, outs) => Some (l, map (option_map (option_map fst)) outs)
            | _ => None
            end
  | _ => None
  end.
Example C60_example :
  (match ex60_map with Ok m => w_rb_reached true (@pure_ord unit N N N N.compare (fun k => k) N.compare) m /\
     exists fm, rb_reached true N.compare (fun k => k) N.compare m fm | _ => False end) /\
  (* 3..6 from the front, to the end and twice more *)
  ex60_run 3 6 20 [false; false; false; false; false; false]
    = Some ([RStart 5; RStart 2; RStart 4; RStart 3; REnd 3; REnd 4; REnd 5; REnd 6],
            [Some (Some 3); Some (Some 4); Some (Some 5); Some None; Some None; Some None]) /\
  (* from the back, one item *)
  ex60_run 3 6 20 [true] = Some ([REnd 5; REnd 7; REnd 6; RStart 5; RStart 4], [Some (Some 5)]) /\
  (* from both ends *)
  ex60_run 3 6 20 [false; true; true]
    = Some ([RStart 5; RStart 2; RStart 4; RStart 3; REnd 3; REnd 4; REnd 5; REnd 7; REnd 6; RStart 5;
             RGt 4 5; RStart 4; RGt 4 4; RStart 3],
            [Some (Some 3); Some (Some 5); Some (Some 4)]) /\
  (* user code that panics from the third question on, or from the sixth *)
  ex60_run 3 6 2 [false; false] = Some ([RStart 5; RStart 2; RStart 4; RStart 5], [None; None]) /\
  ex60_run 3 6 5 [false; false] = Some ([RStart 5; RStart 2; RStart 4; RStart 3; REnd 3; REnd 4; REnd 5], [None; None]).
Proof.
  split; [|vm_compute; repeat split; reflexivity].
  destruct ex60_map as [m| |] eqn:E; try (vm_compute in E; discriminate). split.
  - eexists _, tt, tt, _. vm_compute in E. injection E as <-.
    instantiate (2 := map (fun k => (false, MInsertMut k (k * 10))) [4; 2; 6; 1; 3; 5; 7; 8]). vm_compute. reflexivity.
  - eexists _, (map (fun k => MInsertMut k (k * 10)) [4; 2; 6; 1; 3; 5; 7; 8]), _. vm_compute in E. injection E as <-.
    split; [vm_compute; reflexivity|reflexivity].
Qed.
