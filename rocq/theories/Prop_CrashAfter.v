(** Property C57: a HashTrieMap after caught panics have cost it entries. *)
From Coq Require Import List NArith Arith Bool Lia Permutation.
From Verif Require Import Base Spec SpecMap SpecOrd Sim ListModel SparseModel HashModel HashProofs HashHist HashExtra HashExtraProofs
  Prop_Hash HashIter CrashModel CrashProofs Prop_Crash CrashAfterModel CrashAfter.
Import ListNotations.

(** ** What a damaged map is.  It has the entries [fm]; the entries [lost] are gone, but its size
    still counts them. *)
Definition holds {K V} (m : hmap K V) (fm : fmap K V) (lost : list (K * V)) : Prop :=
  hm_len m = length fm + length lost /\ exists l, hm_entries m = Ok l /\ Permutation l fm.

(** The answer of a call on a map that counts [k] entries it does not have. *)
Definition answer_after {K V Q} (keq : K -> K -> bool) (borrow : K -> Q) (qeq : Q -> Q -> bool)
  (o : map_op K V Q) (fm : fmap K V) (k : nat) : map_obs K V :=
  match o with
  | MSize => MoNat (length fm + k)
  | MIsEmpty => MoBool (length fm + k =? 0)
  | _ => snd (map_spec keq borrow qeq o fm)
  end.

(** An in-place call may lose entries with the hash of its key, if there were two entries with that
    hash, one of which may be lost already. *)
Definition may_lose {K V Q} (hash : K -> N) (qhash : Q -> N) (o : map_op K V Q) (fm : fmap K V) (lost : list (K * V))
  (x : K * V) : Prop :=
  in_place hash qhash o = Some (hash (fst x)) /\ 2 <= entries_with hash (hash (fst x)) (fm ++ lost).

(** The histories [ops] of a map with the answers [outs] ([None]: the call panicked and the panic
    was caught) that lead to the map [m], with the entries [fm], the entries [lost] lost. *)
Inductive after {K V Q} (ubits : N) (dbg : bool) (keq : K -> K -> bool) (borrow : K -> Q) (qeq : Q -> Q -> bool)
  (hash : K -> N) (qhash : Q -> N) (fuel : nat) (degree : N)
  : list (nat * bool * map_op K V Q) -> list (option (map_obs K V)) -> hmap K V -> fmap K V -> list (K * V) -> Prop :=
| after_new : forall m, hm_new_with_degree ubits degree = Ok m -> holds m [] [] ->
    after ubits dbg keq borrow qeq hash qhash fuel degree [] [] m [] []
| after_done : forall ops outs m fm lost n sh o left m',
    after ubits dbg keq borrow qeq hash qhash fuel degree ops outs m fm lost ->
    let a := answer_after keq borrow qeq o fm (length lost) in
    a_hm_step ubits dbg keq borrow qeq hash qhash fuel n sh o m = Ok (Done left (m', a)) ->
    holds m' (fst (map_spec keq borrow qeq o fm)) lost ->
    after ubits dbg keq borrow qeq hash qhash fuel degree (ops ++ [(n, sh, o)]) (outs ++ [Some a])
      m' (fst (map_spec keq borrow qeq o fm)) lost
| after_caught : forall ops outs m fm lost n sh o m' fm' gone,
    after ubits dbg keq borrow qeq hash qhash fuel degree ops outs m fm lost ->
    a_hm_step ubits dbg keq borrow qeq hash qhash fuel n sh o m = Ok (Unwound m') ->
    holds m' fm' (gone ++ lost) -> Permutation (fm' ++ gone) fm ->
    (forall x, In x gone -> may_lose hash qhash o fm lost x) ->
    after ubits dbg keq borrow qeq hash qhash fuel degree (ops ++ [(n, sh, o)]) (outs ++ [None]) m' fm' (gone ++ lost).

Lemma dm_holds : forall K V Q ubits (dbg : bool) b keq (borrow : K -> Q) qeq hash qhash,
  (0 < b)%N -> (2 ^ b <= ubits)%N -> (ubits <= 64)%N -> key_laws keq borrow qeq -> hash_laws borrow qeq hash qhash ->
  forall fuel, 2 * D b < fuel ->
  forall (m : hmap K V) fm lost, dm_rep ubits b keq hash m fm lost -> holds m fm lost.
Proof.
  intros K V Q ubits dbg b keq borrow qeq hash qhash Hb Hd Hub KL HL fuel Hf m fm lost H. split.
  - destruct H as (es & _ & _ & _ & _ & E & _). exact E.
  - exact (dm_iter ubits dbg b Hb Hd Hub keq borrow qeq hash qhash KL HL fuel Hf m fm lost H).
Qed.

Lemma crowd_app : forall K V (hash : K -> N) h (l1 l2 : fmap K V), crowd hash h (l1 ++ l2) = crowd hash h l1 + crowd hash h l2.
Proof. intros. unfold crowd. now rewrite filter_app, app_length. Qed.
Lemma crowd_in : forall K V (hash : K -> N) (l : fmap K V) x, In x l -> 1 <= crowd hash (hash (fst x)) l.
Proof.
  intros K V hash l x Hx. unfold crowd. destruct (filter _ l) as [|y r] eqn:E; [|cbn [length]; lia].
  assert (Hf : In x (filter (fun y => (hash (fst y) =? hash (fst x))%N) l)) by (apply filter_In; split; [exact Hx|apply N.eqb_refl]).
  rewrite E in Hf. destruct Hf.
Qed.
Lemma crowd_perm : forall K V (hash : K -> N) h (l1 l2 : fmap K V), Permutation l1 l2 -> crowd hash h l1 = crowd hash h l2.
Proof. intros. unfold crowd. apply Permutation_length. now apply Permutation_filter. Qed.

Section Step.
Context {K V Q : Type} (ubits : N) (dbg : bool) (b : N) (Hb : (0 < b)%N) (Hd : (2 ^ b <= ubits)%N) (Hub : (ubits <= 64)%N)
  (keq : K -> K -> bool) (borrow : K -> Q) (qeq : Q -> Q -> bool) (hash : K -> N) (qhash : Q -> N)
  (KL : key_laws keq borrow qeq) (HL : hash_laws borrow qeq hash qhash) (fuel : nat) (Hf : 2 * D b < fuel).
Notation dm := (@dm_rep ubits b K V keq hash).
Notation step := (a_hm_step ubits dbg keq borrow qeq hash qhash fuel).

Lemma unwound_post : forall shared o n (m : hmap K V) fm lost m', dm m fm lost -> step n shared o m = Ok (Unwound m') ->
  exists fm' gone, dm m' fm' (gone ++ lost) /\ Permutation (fm' ++ gone) fm /\
    (forall x, In x gone -> may_lose hash qhash o fm lost x).
Proof.
  intros shared o n m fm lost m' H E.
  destruct (a_step_ok ubits dbg b Hb Hd Hub keq borrow qeq hash qhash KL HL fuel Hf shared o m fm lost H) as (c & r & Hr & Hn).
  destruct (Hn n) as (H1 & H2). destruct (Nat.lt_ge_cases n c) as [Hlt|Hge].
  - destruct (H2 Hlt) as (s & Es & Hp). assert (s = m') by congruence. subst s.
    destruct (op_hash hash qhash o) as [h|] eqn:Eh.
    + destruct Hp as (fm' & gone & Hm & Hpm & Hg & Hc). exists fm', gone. split; [exact Hm|]. split; [exact Hpm|].
      intros x Hx. rewrite <- (Hg x Hx) in Eh. split; [exact Eh|]. change (2 <= crowd hash (hash (fst x)) (fm ++ lost)).
      rewrite crowd_app. destruct Hc as [Hc|(y & Hy & Ey)]; [intros ->; destruct Hx| |].
      * rewrite (Hg x Hx). lia.
      * rewrite (Hg x Hx), <- Ey. pose proof (crowd_in K V hash lost y Hy).
        assert (1 <= crowd hash (hash (fst x)) fm).
        { apply crowd_in. apply (Permutation_in _ Hpm). apply in_app_iff. now right. }
        rewrite (Hg x Hx), <- Ey in *. lia.
    + subst m'. exists fm, []. rewrite app_nil_r. split; [exact H|]. split; [reflexivity|]. intros x [].
  - rewrite (H1 Hge) in E. destruct r as [(m1 & a)|s]; [discriminate|]. inversion E; subst s. clear E.
    destruct Hr as (q & m1 & (Hhit & Hsame & Hm) & [(-> & ->)|(-> & ->)]).
    + exists fm, []. rewrite app_nil_r. split; [exact H|]. split; [reflexivity|]. intros x [].
    + exists (fm_remove borrow qeq q fm), (filter (is_key borrow qeq q) fm). split; [exact Hm|]. split.
      * clear. unfold fm_remove, is_key. induction fm as [|x fm IH]; [reflexivity|]. cbn [filter].
        destruct (qeq (borrow (fst x)) q); cbn [negb app]; [|now constructor].
        rewrite <- Permutation_middle. now constructor.
      * intros x Hx. apply filter_In in Hx as (Hx & Ek). unfold is_key in Ek.
        assert (Eh : hash (fst x) = qhash q) by (rewrite (hl_borrow _ _ _ _ HL); now apply (hl_eq _ _ _ _ HL)).
        split; [cbn [in_place]; now rewrite Eh|]. change (2 <= crowd hash (hash (fst x)) (fm ++ lost)). rewrite crowd_app.
        destruct Hhit as (y & Hy & Ey). pose proof (crowd_in K V hash lost y Hy). pose proof (crowd_in K V hash fm x Hx).
        rewrite Eh, <- Ey in *. lia.
Qed.

Lemma done_post : forall shared o n (m : hmap K V) fm lost left m' a, dm m fm lost -> step n shared o m = Ok (Done left (m', a)) ->
  a = answer_after keq borrow qeq o fm (length lost) /\ dm m' (fst (map_spec keq borrow qeq o fm)) lost.
Proof.
  intros shared o n m fm lost left m' a H E.
  destruct (a_step_ok ubits dbg b Hb Hd Hub keq borrow qeq hash qhash KL HL fuel Hf shared o m fm lost H) as (c & r & Hr & Hn).
  destruct (Hn n) as (H1 & H2). destruct (Nat.lt_ge_cases n c) as [Hlt|Hge].
  - destruct (H2 Hlt) as (s & Es & Hp). congruence.
  - rewrite (H1 Hge) in E. destruct r as [(m1 & a1)|s]; [|discriminate]. inversion E; subst. exact Hr.
Qed.

Lemma after_dm : forall ops outs m fm lost, after ubits dbg keq borrow qeq hash qhash fuel (2 ^ b) ops outs m fm lost ->
  dm m fm lost /\ length outs = length ops.
Proof.
  intros ops outs m fm lost H.
  induction H as [m E _|ops outs m fm lost n sh o left m' H IH a E _|ops outs m fm lost n sh o m' fm' gone H IH E Hh Hp Hg].
  - destruct (dm_new (V:=V) ubits dbg b Hb Hd Hub keq borrow qeq hash qhash KL HL fuel Hf) as (m0 & E0 & Hm).
    split; [|reflexivity]. congruence.
  - rewrite !app_length. destruct IH as (Hm & Hl). split; [|cbn [length]; congruence]. eapply done_post; eauto.
  - destruct IH as (Hm & Hl). split; [|rewrite !app_length; cbn [length]; congruence].
    destruct (unwound_post _ _ _ _ _ _ _ Hm E) as (fm1 & gone1 & Hm1 & Hp1 & _).
    destruct (dm_holds K V Q ubits dbg b keq borrow qeq hash qhash Hb Hd Hub KL HL fuel Hf m' _ _ Hm1) as (_ & l1 & El1 & Hpl1).
    destruct Hh as (_ & l & El & Hpl). assert (l1 = l) by congruence. subst l1.
    assert (Hff : Permutation fm1 fm') by (now rewrite <- Hpl1).
    apply (dm_perm ubits dbg b Hb Hd Hub keq borrow qeq hash qhash KL HL fuel Hf m' fm1 fm' (gone1 ++ lost)); [exact Hff| |exact Hm1].
    apply Permutation_app_tail. apply (Permutation_app_inv_l fm1). rewrite Hp1, <- Hp. now apply Permutation_app_tail.
Qed.
End Step.


(** A call on any such map makes a number [calls] of calls to user code.  If one of them panics, the
    map keeps all entries but those it may lose, and its size.  If all return, the call answers by
    the entries the map still has -- [size] and [is_empty] by its count -- or it is a removal of a key
    whose hash is that of a lost entry and of no other entry left: that one panics by itself. *)
Theorem C57_hash_step : forall (K V Q : Type) (ubits : N) (dbg : bool)
  (keq : K -> K -> bool) (borrow : K -> Q) (qeq : Q -> Q -> bool) (hash : K -> N) (qhash : Q -> N),
  (ubits <= 64)%N -> key_laws keq borrow qeq -> hash_laws borrow qeq hash qhash ->
  forall (degree : N) (fuel : nat), supported ubits degree -> 2 * digits degree < fuel ->
  forall ops outs (m : hmap K V) fm lost, after ubits dbg keq borrow qeq hash qhash fuel degree ops outs m fm lost ->
  forall (shared : bool) (o : map_op K V Q),
  let step n := a_hm_step ubits dbg keq borrow qeq hash qhash fuel n shared o m in
  exists calls,
    (forall n, n < calls -> exists m' fm' gone, step n = Ok (Unwound m') /\
       holds m' fm' (gone ++ lost) /\ Permutation (fm' ++ gone) fm /\
       (in_place hash qhash o = None -> m' = m) /\ forall x, In x gone -> may_lose hash qhash o fm lost x) /\
    ((exists m', (forall n, calls <= n -> step n = Ok (Done (n - calls) (m', answer_after keq borrow qeq o fm (length lost)))) /\
        holds m' (fst (map_spec keq borrow qeq o fm)) lost) \/
     (exists m' q, (forall n, calls <= n -> step n = Ok (Unwound m')) /\
        1 <= entries_with hash (qhash q) lost /\ entries_with hash (qhash q) (fm_remove borrow qeq q fm) = 0 /\
        (o = MRemove q /\ m' = m \/
         o = MRemoveMut q /\ holds m' (fm_remove borrow qeq q fm) (filter (fun x => qeq (borrow (fst x)) q) fm ++ lost)))).
Proof.
  intros K V Q ubits dbg keq borrow qeq hash qhash Hub KL HL degree fuel (b & Hb & -> & Hd) Hf ops outs m fm lost Ha shared o step.
  rewrite digits_D in Hf.
  destruct (after_dm ubits dbg b Hb Hd Hub keq borrow qeq hash qhash KL HL fuel Hf _ _ _ _ _ Ha) as (Hm & _).
  pose proof (dm_holds K V Q ubits dbg b keq borrow qeq hash qhash Hb Hd Hub KL HL fuel Hf) as HH.
  destruct (a_step_ok ubits dbg b Hb Hd Hub keq borrow qeq hash qhash KL HL fuel Hf shared o m fm lost Hm) as (c & r & Hr & Hn).
  exists c. split.
  - intros n Hlt. destruct (proj2 (Hn n) Hlt) as (m' & E & Hp).
    destruct (unwound_post ubits dbg b Hb Hd Hub keq borrow qeq hash qhash KL HL fuel Hf shared o n m fm lost m' Hm E)
      as (fm' & gone & Hm' & Hpm & Hg).
    exists m', fm', gone. split; [exact E|]. split; [now apply HH|]. split; [exact Hpm|]. split; [|exact Hg].
    intros En. change (op_hash hash qhash o = None) in En. rewrite En in Hp. exact Hp.
  - destruct r as [(m' & a)|m'].
    + destruct Hr as (-> & Hm'). left. exists m'. split; [|now apply HH]. intros n Hge. exact (proj1 (Hn n) Hge).
    + destruct Hr as (q & m1 & (Hhit & Hsame & Hm1) & Ho). right. exists m', q.
      split; [intros n Hge; exact (proj1 (Hn n) Hge)|]. split.
      { destruct Hhit as (y & Hy & <-). exact (crowd_in K V hash lost y Hy). }
      split.
      { unfold entries_with, fm_remove.
        destruct (filter (fun x => (hash (fst x) =? qhash q)%N) _) as [|y l] eqn:E; [reflexivity|exfalso].
        assert (Hy : In y (y :: l)) by now left. rewrite <- E in Hy. apply filter_In in Hy as (Hy & Ey).
        apply filter_In in Hy as (Hy & En). apply N.eqb_eq in Ey. apply Hsame in Ey; [|exact Hy]. unfold is_key in Ey.
        rewrite Ey in En. discriminate. }
      destruct Ho as [(-> & ->)|(-> & ->)]; [now left|]. right. split; [reflexivity|]. apply HH. exact Hm1.
Qed.
Print Assumptions C57_hash_step.

(** Every history with panics at any calls of user code, all caught, is such a history: nothing else
    happens, however many entries have been lost. *)
Theorem C57_hash_history : forall (K V Q : Type) (ubits : N) (dbg : bool)
  (keq : K -> K -> bool) (borrow : K -> Q) (qeq : Q -> Q -> bool) (hash : K -> N) (qhash : Q -> N),
  (ubits <= 64)%N -> key_laws keq borrow qeq -> hash_laws borrow qeq hash qhash ->
  forall (degree : N) (fuel : nat), supported ubits degree -> 2 * digits degree < fuel ->
  forall (ops : list (nat * bool * map_op K V Q)), exists m0 m outs fm lost,
    hm_new_with_degree ubits degree = Ok m0 /\
    c_exec (a_hm_step ubits dbg keq borrow qeq hash qhash fuel) ops m0 = Ok (m, outs) /\
    after ubits dbg keq borrow qeq hash qhash fuel degree ops outs m fm lost.
Proof.
  intros K V Q ubits dbg keq borrow qeq hash qhash Hub KL HL degree fuel (b & Hb & -> & Hd) Hf ops.
  rewrite digits_D in Hf.
  pose proof (dm_holds K V Q ubits dbg b keq borrow qeq hash qhash Hb Hd Hub KL HL fuel Hf) as HH.
  destruct (dm_new (V:=V) ubits dbg b Hb Hd Hub keq borrow qeq hash qhash KL HL fuel Hf) as (m0 & E0 & Hm0).
  exists m0.
  assert (Hg : forall ops pre po (m : hmap K V) fm lost, after ubits dbg keq borrow qeq hash qhash fuel (2 ^ b) pre po m fm lost ->
    exists m' outs fm' lost', c_exec (a_hm_step ubits dbg keq borrow qeq hash qhash fuel) ops m = Ok (m', outs) /\
      after ubits dbg keq borrow qeq hash qhash fuel (2 ^ b) (pre ++ ops) (po ++ outs) m' fm' lost').
  { clear ops. induction ops as [|((n & sh) & o) ops IH]; intros pre po m fm lost Ha.
    - exists m, [], fm, lost. now rewrite !app_nil_r.
    - destruct (after_dm ubits dbg b Hb Hd Hub keq borrow qeq hash qhash KL HL fuel Hf _ _ _ _ _ Ha) as (Hm & _).
      destruct (a_step_ok ubits dbg b Hb Hd Hub keq borrow qeq hash qhash KL HL fuel Hf sh o m fm lost Hm) as (c & r & Hr & Hn).
      assert (Hs : (exists left m' a, a_hm_step ubits dbg keq borrow qeq hash qhash fuel n sh o m = Ok (Done left (m', a))) \/
                   exists m', a_hm_step ubits dbg keq borrow qeq hash qhash fuel n sh o m = Ok (Unwound m')).
      { destruct (Hn n) as (H1 & H2). destruct (Nat.lt_ge_cases n c) as [Hlt|Hge].
        - right. destruct (H2 Hlt) as (s & E & _). eauto.
        - rewrite (H1 Hge). destruct r as [(m' & a)|s]; eauto. }
      cbn [c_exec]. destruct Hs as [(left & m1 & a & E)|(m1 & E)]; rewrite E; cbn [bind].
      + destruct (done_post ubits dbg b Hb Hd Hub keq borrow qeq hash qhash KL HL fuel Hf _ _ _ _ _ _ _ _ _ Hm E) as (-> & Hm1).
        destruct (IH (pre ++ [(n, sh, o)]) (po ++ [Some (answer_after keq borrow qeq o fm (length lost))]) m1
          (fst (map_spec keq borrow qeq o fm)) lost)
          as (m' & outs & fm' & lost' & Ex & Hx).
        { eapply after_done; [exact Ha|exact E|now apply HH]. }
        rewrite Ex. cbn [bind]. eexists m', _, fm', lost'. split; [reflexivity|]. rewrite <- !app_assoc in Hx. exact Hx.
      + destruct (unwound_post ubits dbg b Hb Hd Hub keq borrow qeq hash qhash KL HL fuel Hf _ _ _ _ _ _ _ Hm E) as (fm1 & gone & Hm1 & Hpm & Hgo).
        destruct (IH (pre ++ [(n, sh, o)]) (po ++ [None]) m1 fm1 (gone ++ lost)) as (m' & outs & fm' & lost' & Ex & Hx).
        { eapply after_caught; [exact Ha|exact E|now apply HH|exact Hpm|exact Hgo]. }
        rewrite Ex. cbn [bind]. eexists m', _, fm', lost'. split; [reflexivity|]. rewrite <- !app_assoc in Hx. exact Hx. }
  destruct (Hg ops [] [] m0 [] []) as (m & outs & fm & lost & E & H); [apply after_new; [exact E0|now apply HH]|].
  exists m, outs, fm, lost. auto.
Qed.
Print Assumptions C57_hash_history.

(** A caught panic harms no key but those with the hash of the key of the call: if no in-place call
    with the hash of [q] has panicked, the map has [q] as if only the completed calls had been made. *)
Lemma exec_s_snoc : forall O X S (f : O -> S -> S * X) l o s,
  fst (exec_s f (l ++ [o]) s) = fst (f o (fst (exec_s f l s))).
Proof.
  intros O X S f l o. induction l as [|a l IH]; intros s; cbn [exec_s app].
  - cbn [fst]. destruct (f o s) as [s1 x]. reflexivity.
  - destruct (f a s) as [s1 x]. specialize (IH s1). destruct (exec_s f (l ++ [o]) s1), (exec_s f l s1). exact IH.
Qed.
Lemma done_ops_snoc : forall O X (ops : list (nat * bool * O)) (outs : list (option X)) n sh o y, length outs = length ops ->
  done_ops (ops ++ [(n, sh, o)]) (outs ++ [y]) = done_ops ops outs ++ match y with Some _ => [o] | None => [] end.
Proof.
  intros O X ops. induction ops as [|((n1 & sh1) & o1) ops IH]; intros [|z outs] n sh o y E; try discriminate.
  - now destruct y.
  - cbn [app done_ops]. destruct z; cbn [app]; [f_equal|]; apply IH; now inversion E.
Qed.
Lemma filter_comm : forall A (f g : A -> bool) (l : list A), filter f (filter g l) = filter g (filter f l).
Proof.
  intros A f g l. induction l as [|x l IH]; [reflexivity|]. cbn [filter].
  destruct (g x) eqn:G, (f x) eqn:F; cbn [filter]; rewrite ?F, ?G, IH; reflexivity.
Qed.
Lemma spec_local : forall K V Q keq (borrow : K -> Q) qeq (p : K -> bool) (o : map_op K V Q) fm fm2,
  Permutation (filter (fun x => p (fst x)) fm) (filter (fun x => p (fst x)) fm2) ->
  Permutation (filter (fun x => p (fst x)) (fst (map_spec keq borrow qeq o fm)))
    (filter (fun x => p (fst x)) (fst (map_spec keq borrow qeq o fm2))).
Proof.
  intros K V Q keq borrow qeq p o fm fm2 H.
  assert (Hins : forall k v, Permutation (filter (fun x => p (fst x)) (fm_insert keq k v fm)) (filter (fun x => p (fst x)) (fm_insert keq k v fm2))).
  { intros k v. unfold fm_insert. cbn [filter fst]. rewrite !(filter_comm _ (fun x => p (fst x))).
    apply (Permutation_filter _ (fun x => negb (keq (fst x) k))) in H. destruct (p k); [now constructor|exact H]. }
  assert (Hrem : forall q, Permutation (filter (fun x => p (fst x)) (fm_remove borrow qeq q fm)) (filter (fun x => p (fst x)) (fm_remove borrow qeq q fm2))).
  { intros q. unfold fm_remove. rewrite !(filter_comm _ (fun x => p (fst x))). now apply Permutation_filter. }
  destruct o; cbn [map_spec fst]; auto.
  assert (Hm : forall l : fmap K V, filter (fun x => p (fst x)) (fm_modify borrow qeq q f l) = fm_modify borrow qeq q f (filter (fun x => p (fst x)) l)).
  { unfold fm_modify. induction l as [|x l IH]; [reflexivity|]. cbn [map filter].
    assert (Ef : fst (if qeq (borrow (fst x)) q then (fst x, f (snd x)) else x) = fst x) by (destruct (qeq (borrow (fst x)) q); reflexivity).
    rewrite Ef. destruct (p (fst x)); cbn [map]; now rewrite IH. }
  rewrite !Hm. unfold fm_modify. now apply Permutation_map.
Qed.

Theorem C57_hash_elsewhere : forall (K V Q : Type) (ubits : N) (dbg : bool)
  (keq : K -> K -> bool) (borrow : K -> Q) (qeq : Q -> Q -> bool) (hash : K -> N) (qhash : Q -> N),
  (ubits <= 64)%N -> key_laws keq borrow qeq -> hash_laws borrow qeq hash qhash ->
  forall (degree : N) (fuel : nat), supported ubits degree -> 2 * digits degree < fuel ->
  forall ops outs (m : hmap K V) fm lost, after ubits dbg keq borrow qeq hash qhash fuel degree ops outs m fm lost ->
  forall q, (forall i n sh o, nth_error ops i = Some (n, sh, o) -> nth_error outs i = Some None ->
               in_place hash qhash o <> Some (qhash q)) ->
  fm_find borrow qeq q fm = fm_find borrow qeq q (fst (exec_s (map_spec keq borrow qeq) (done_ops ops outs) [])) /\
  forall x, In x lost -> hash (fst x) <> qhash q.
Proof.
  intros K V Q ubits dbg keq borrow qeq hash qhash Hub KL HL degree fuel (b & Hb & -> & Hd) Hf ops outs m fm lost Ha q Hq.
  rewrite digits_D in Hf.
  pose proof (after_dm (V:=V) ubits dbg b Hb Hd Hub keq borrow qeq hash qhash KL HL fuel Hf) as HD.
  destruct (HD _ _ _ _ _ Ha) as ((es & _ & _ & _ & Hu & _) & _).
  assert (Hloc : Permutation (filter (fun x => (hash (fst x) =? qhash q)%N) fm)
    (filter (fun x => (hash (fst x) =? qhash q)%N) (fst (exec_s (map_spec keq borrow qeq) (done_ops ops outs) []))) /\
    forall x, In x lost -> hash (fst x) <> qhash q).
  { clear Hu es. induction Ha as [m E _|ops outs m fm lost n sh o left m' H IH a E _|ops outs m fm lost n sh o m' fm' gone H IH E Hh Hp Hg].
    - split; [reflexivity|intros x []].
    - destruct (HD _ _ _ _ _ H) as (_ & El). rewrite done_ops_snoc by exact El. rewrite exec_s_snoc. destruct IH as (IH & IHl).
      + intros i n1 sh1 o1 E1 E2. apply (Hq i n1 sh1); [rewrite nth_error_app1|rewrite nth_error_app1]; auto; apply nth_error_Some; congruence.
      + split; [|exact IHl]. exact (spec_local K V Q keq borrow qeq (fun k => (hash k =? qhash q)%N) o fm _ IH).
    - destruct (HD _ _ _ _ _ H) as (_ & El). rewrite done_ops_snoc, app_nil_r by exact El. destruct IH as (IH & IHl).
      + intros i n1 sh1 o1 E1 E2. apply (Hq i n1 sh1); [rewrite nth_error_app1|rewrite nth_error_app1]; auto; apply nth_error_Some; congruence.
      + assert (Ho : in_place hash qhash o <> Some (qhash q)).
        { apply (Hq (length ops) n sh); [|rewrite <- El]; rewrite nth_error_app2, Nat.sub_diag by lia; reflexivity. }
        assert (Hgo : forall x, In x gone -> hash (fst x) <> qhash q).
        { intros x Hx Ex. apply Hg in Hx as (Ei & _). congruence. }
        split; [|intros x Hx; apply in_app_iff in Hx as [Hx|Hx]; auto]. rewrite <- IH.
        apply (Permutation_filter _ (fun x => (hash (fst x) =? qhash q)%N)) in Hp. rewrite <- Hp, filter_app.
        assert (Hz : filter (fun x => (hash (fst x) =? qhash q)%N) gone = []).
        { clear - Hgo. induction gone as [|x gone IH]; [reflexivity|]. cbn [filter].
          destruct (N.eqb_spec (hash (fst x)) (qhash q)) as [Ex|]; [exfalso; apply (Hgo x); [now left|exact Ex]|]. apply IH.
          intros y Hy. apply Hgo. now right. }
        rewrite Hz. now rewrite app_nil_r. }
  destruct Hloc as (Hloc & Hl). split; [|exact Hl].
  assert (Hfi : forall l : fmap K V, fm_find borrow qeq q l = find (fun x => qeq (borrow (fst x)) q) (filter (fun x => (hash (fst x) =? qhash q)%N) l)).
  { unfold fm_find. induction l as [|x l IH]; [reflexivity|]. cbn [find filter].
    destruct (qeq (borrow (fst x)) q) eqn:Eq.
    - assert (Eh : hash (fst x) = qhash q) by (rewrite (hl_borrow _ _ _ _ HL); now apply (hl_eq _ _ _ _ HL)).
      rewrite Eh, N.eqb_refl. cbn [find]. now rewrite Eq.
    - destruct (hash (fst x) =? qhash q)%N; cbn [find]; [rewrite Eq|]; exact IH. }
  rewrite !Hfi. apply find_perm; [exact Hloc|].
  apply (unique_uniq keq borrow qeq KL). now apply FOP_filter.
Qed.
Print Assumptions C57_hash_elsewhere.

(** Wherever the functions of C43 -- which do not follow the library's own panics -- say how a call
    ends, it ends so here. *)
Lemma a_bind : forall S S' A B (x x' : res (crash S A)) (k k' : S -> S') (f f' : nat -> A -> res (crash S' B)) r,
  (forall y, x = Ok y -> x' = Ok y) -> (forall s, k s = k' s) -> (forall n a y, f n a = Ok y -> f' n a = Ok y) ->
  cbind x k f = Ok r -> cbind x' k' f' = Ok r.
Proof.
  intros S S' A B x x' k k' f f' r Hx Hk Hf E. destruct x as [[left a|s]| |]; try discriminate; rewrite (Hx _ eq_refl); cbn [cbind bind] in *.
  - now apply Hf.
  - now rewrite <- Hk.
Qed.
Lemma a_node_agrees : forall K V Q ubits dbg (borrow : K -> Q) qeq fuel n q h (nd : hnode K V) d degree r,
  c_hn_remove ubits dbg borrow qeq fuel n q h nd d degree = Ok r ->
  a_hn_remove ubits dbg borrow qeq fuel n q h nd d degree = Ok r.
Proof.
  intros K V Q ubits dbg borrow qeq. induction fuel as [|fuel IH]; intros n q h nd d degree r E; [discriminate|].
  cbn [c_hn_remove a_hn_remove] in *. destruct nd as [s|bk].
  - destruct (index_from_hash dbg h d degree) as [oi| |]; cbn [bind] in *; try discriminate.
    destruct (unwrap oi) as [i| |]; cbn [bind] in *; try discriminate.
    destruct (sa_get_mut ubits dbg s i) as [[(c & w)|]| |]; cbn [bind] in *; try discriminate; [|exact E].
    eapply a_bind; [| | |exact E]; [intros y; apply IH|reflexivity|auto].
  - eapply a_bind; [| | |exact E]; [|reflexivity|auto]. intros y Ey. unfold c_b_remove, a_b_remove in *. destruct bk as [e|l]; [exact Ey|].
    eapply a_bind; [| | |exact Ey]; [auto|reflexivity|]. intros n1 (l' & rm) y1 Ey1. destruct (l_len l') as [|[|?]]; [discriminate|exact Ey1|exact Ey1].
Qed.
Theorem C57_agrees : forall (K V Q : Type) (ubits : N) (dbg : bool)
  (keq : K -> K -> bool) (borrow : K -> Q) (qeq : Q -> Q -> bool) (hash : K -> N) (qhash : Q -> N)
  (fuel n : nat) (shared : bool) (o : map_op K V Q) (m : hmap K V) r,
  c_hm_step ubits dbg keq borrow qeq hash qhash fuel n shared o m = Ok r ->
  a_hm_step ubits dbg keq borrow qeq hash qhash fuel n shared o m = Ok r.
Proof.
  intros K V Q ubits dbg keq borrow qeq hash qhash fuel n shared o m r E.
  assert (Hr : forall q y, c_hm_remove_mut ubits dbg borrow qeq qhash fuel n m q = Ok y ->
    a_hm_remove_mut ubits dbg borrow qeq qhash fuel n m q = Ok y).
  { intros q y Ey. unfold c_hm_remove_mut, a_hm_remove_mut in *. destruct n as [|n1]; [exact Ey|]. cbn [ucall] in *.
    eapply a_bind; [| | |exact Ey]; [intros z; apply a_node_agrees|reflexivity|auto]. }
  destruct o; try exact E; cbn [c_hm_step a_hm_step] in *; (eapply a_bind; [| | |exact E]; [apply Hr|reflexivity|auto]).
Qed.
Print Assumptions C57_agrees.

(** ** Examples *)
Local Open Scope N_scope.
(** Keys 2 and 3 have one hash. *)
Definition exa_ops : list (nat * bool * map_op (N * N) N N) :=
  [(99%nat, false, MInsertMut (2, 0) 10); (99%nat, false, MInsertMut (3, 0) 11); (99%nat, false, MInsertMut (4, 0) 12);
   (1%nat, false, MGetMut 2 (N.add 1))].

(** That a call panics only if user code does is false once entries have been lost: [get_mut] of 2 is
    interrupted and loses 3; removing 2, though all of its user calls return, panics, and leaves a
    map of size 3 with one entry. *)
Theorem C57_no_own_panic_refuted : exists (m m' : hmap (N * N) N) fm lost,
  after 64 true ex_keq fst N.eqb ex_hash ex_qhash 129 64 exa_ops [Some MoUnit; Some MoUnit; Some MoUnit; None] m fm lost /\
  fm_find fst N.eqb 2 fm = Some ((2, 0), 10) /\
  (forall n, (2 <= n)%nat ->
     a_hm_step 64 true ex_keq fst N.eqb ex_hash ex_qhash 129 n false (MRemoveMut 2) m = Ok (Unwound m')) /\
  hm_len m' = 3%nat /\ hm_entries m' = Ok [((4, 0), 12)].
Proof.
  destruct (C57_hash_history (N * N) N N 64 true ex_keq fst N.eqb ex_hash ex_qhash ltac:(discriminate) ex_key_laws ex_hash_laws
    64 129%nat ltac:(exists 6; repeat split; discriminate) ltac:(vm_compute; repeat constructor) exa_ops)
    as (m0 & m & outs & fm & lost & E0 & E & H).
  assert (Hh : exists l, hm_entries m = Ok l /\ Permutation l fm).
  { destruct (after_dm 64 true 6 ltac:(reflexivity) ltac:(discriminate) ltac:(discriminate) ex_keq fst N.eqb ex_hash ex_qhash
      ex_key_laws ex_hash_laws 129%nat ltac:(vm_compute; repeat constructor) _ _ _ _ _ H) as (Hm & _).
    exact (proj2 (dm_holds _ _ _ 64 true 6 ex_keq fst N.eqb ex_hash ex_qhash ltac:(reflexivity) ltac:(discriminate) ltac:(discriminate)
      ex_key_laws ex_hash_laws 129%nat ltac:(vm_compute; repeat constructor) _ _ _ Hm)). }
  vm_compute in E0. injection E0 as <-. vm_compute in E. injection E as <- <-.
  eexists _, _, fm, lost. split; [exact H|]. split.
  - destruct Hh as (l & El & Hp). vm_compute in El. injection El as <-.
    apply Permutation_sym in Hp. transitivity (fm_find fst N.eqb 2 [((2, 0), 10); ((4, 0), 12)]); [|reflexivity].
    symmetry. apply find_perm; [now symmetry in Hp|]. vm_compute. repeat constructor.
  - split; [intros n Hn; destruct n as [|[|n]]; [lia|lia|]; vm_compute; reflexivity|].
    split; vm_compute; reflexivity.
Qed.
Print Assumptions C57_no_own_panic_refuted.

(** The same history gone on with: the map keeps answering by the entries it has; inserting and
    removing other keys of the same hash works; the count stays off by the entries lost. *)
Example C57_example :
  (let! m0 := hm_new_with_degree 64 64 in
   let! (m, outs) := c_exec (a_hm_step 64 true ex_keq fst N.eqb ex_hash ex_qhash 129)
     (exa_ops ++ [(99%nat, false, MGet 3); (99%nat, false, MGet 2); (99%nat, false, MSize); (99%nat, false, MRemove 2);
       (99%nat, false, MInsertMut (3, 0) 21); (99%nat, false, MRemoveMut 2); (99%nat, false, MGet 3); (99%nat, false, MRemoveMut 3);
       (99%nat, false, MRemoveMut 4); (99%nat, false, MIsEmpty); (99%nat, false, MSize)]) m0 in
   let! l := hm_entries m in Ok (outs, l))
  = Ok ([Some MoUnit; Some MoUnit; Some MoUnit; None;
         Some (MoVal None); Some (MoVal (Some 10)); Some (MoNat 3); None;
         Some MoUnit; Some (MoBool true); Some (MoVal (Some 21)); Some (MoBool true);
         Some (MoBool true); Some (MoBool false); Some (MoNat 1)], []).
Proof. vm_compute. reflexivity. Qed.
(** A key [C57_hash_elsewhere] speaks of in that history: 4, whose hash no interrupted call has. *)
Example C57_example_elsewhere : forall i n sh o, nth_error exa_ops i = Some (n, sh, o) ->
  nth_error [Some (@MoUnit (N * N) N); Some MoUnit; Some MoUnit; None] i = Some None -> in_place ex_hash ex_qhash o <> Some (ex_qhash 4).
Proof.
  intros i n sh o E1 E2. destruct i as [|[|[|[|i]]]]; cbn in E1, E2; try discriminate.
  - injection E1 as <- <- <-. vm_compute. discriminate.
  - destruct i; discriminate.
Qed.
